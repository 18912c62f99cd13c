(** * Proofs about tube constructors, operators and queries *)
From Coq Require Import Reals Lra Bool List Arith Lia ZArith.
From Verif Require Import Itv Arith Tube TubeSpec TubeFacts TubeOps.
Import ListNotations.
Open Scope R_scope.
Local Arguments Nat.eqb : simpl never.
Local Arguments seq : simpl never.

Lemma seq_S_end n m : seq n (S m) = seq n m ++ [(n + m)%nat].
Proof. apply seq_S. Qed.

Definition rewritten (ec ei : nat -> itv) (m j : nat) (s : slice) : slice :=
  mkS (s_lb s) (s_ub s)
    (if Nat.ltb j m then ec j else s_cod s)
    (if Nat.ltb j m then ei j else s_in s)
    (if Nat.ltb (S j) m then ei (S j) else s_out s).

Lemma slice_eta s : mkS (s_lb s) (s_ub s) (s_cod s) (s_in s) (s_out s) = s.
Proof. destruct s; reflexivity. Qed.

Lemma set_env_false_nth k y x j :
  nth_error (set_envelope k y false x) j = if Nat.eqb j k then option_map (set_cod y) (nth_error x j) else nth_error x j.
Proof.
  unfold set_envelope. destruct (nth_error x k) eqn:E.
  - apply nth_error_upd.
  - destruct (Nat.eqb_spec j k); auto. subst; rewrite E; auto.
Qed.

Lemma map_loop_prefix ec ei x m j : (m <= length x)%nat ->
  nth_error (fold_left
    (fun acc k => set_input_gate k (ei k) false (set_envelope k (ec k) false acc)) (seq 0 m) x) j
  = option_map (rewritten ec ei m j) (nth_error x j).
Proof.
  revert j. induction m as [|m IH]; intros j Hm.
  - unfold seq; simpl. destruct (nth_error x j) as [s|]; simpl; auto. f_equal. unfold rewritten.
    replace (Nat.ltb j 0) with false by (symmetry; apply Nat.ltb_ge; lia).
    replace (Nat.ltb (S j) 0) with false by (symmetry; apply Nat.ltb_ge; lia).
    symmetry; apply slice_eta.
  - rewrite seq_S_end, fold_left_app. simpl fold_left at 1.
    unfold set_input_gate at 1. rewrite put_gate_nth, set_env_false_nth.
    rewrite IH by lia.
    destruct (nth_error x j) as [s|]; simpl; [|neq; reflexivity].
    unfold rewritten.
    destruct (Nat.eqb_spec j m); [subst j|destruct (Nat.eqb_spec (S j) m); [subst m|]]; simpl;
      unfold set_in, set_out, set_cod; simpl;
      repeat match goal with |- context [Nat.ltb ?a ?b] => destruct (Nat.ltb_spec a b); try lia end; reflexivity.
Qed.

Lemma map_loop_nth ec ei eo x j :
  nth_error (map_loop ec ei eo x) j =
  option_map (fun s => mkS (s_lb s) (s_ub s) (ec j) (ei j)
                 (if Nat.eqb (S j) (length x) then eo else ei (S j))) (nth_error x j).
Proof.
  unfold map_loop, set_output_gate. rewrite put_gate_nth, map_loop_prefix by lia.
  destruct (nth_error x j) as [s|] eqn:E; simpl; [|neq; reflexivity].
  assert (j < length x)%nat as Hj by (apply nth_error_Some; congruence).
  unfold rewritten. replace (Nat.ltb j (length x)) with true by (symmetry; apply Nat.ltb_lt; lia).
  destruct (Nat.eqb_spec (S j) (length x)) as [e|e].
  - rewrite <- e. replace (S (S j - 1)) with (S j) by lia. rewrite Nat.eqb_refl. neq; reflexivity.
  - destruct (Nat.eqb_spec j (S (length x - 1))); [lia|].
    destruct (Nat.eqb_spec (S j) (S (length x - 1))); [lia|].
    replace (Nat.ltb (S j) (length x)) with true by (symmetry; apply Nat.ltb_lt; lia). reflexivity.
Qed.

Lemma map_loop_dom ec ei eo x : map dom (map_loop ec ei eo x) = map dom x.
Proof.
  apply nth_error_ext. intros k. rewrite !nth_error_map, map_loop_nth. destruct (nth_error x k); reflexivity.
Qed.
Lemma map_loop_shared ec ei eo x : gates_shared (map_loop ec ei eo x).
Proof.
  apply gates_shared_nth. intros k a b. rewrite !map_loop_nth.
  destruct (nth_error x k); [|discriminate]. destruct (nth_error x (S k)) eqn:E; [|discriminate].
  assert (S k < length x)%nat by (apply nth_error_Some; congruence).
  simpl. intros Ha Hb; inversion Ha; inversion Hb; subst; simpl.
  destruct (Nat.eqb_spec (S k) (length x)); [lia|reflexivity].
Qed.
Lemma map_loop_length ec ei eo x : length (map_loop ec ei eo x) = length x.
Proof. rewrite <- (map_length dom), map_loop_dom, map_length; auto. Qed.

Lemma sl_nth x k s : nth_error x k = Some s -> sl x k = s.
Proof. intros H. unfold sl. apply nth_error_nth; auto. Qed.

Lemma map_loop_ok a b ec ei eo x : tube_ok a b x ->
  (forall k s, nth_error x k = Some s -> wf (ec k) /\ wf (ei k) /\ sub (ei k) (ec k)) ->
  (forall k s s', nth_error x k = Some s -> nth_error x (S k) = Some s' -> sub (ei (S k)) (ec k)) ->
  wf eo -> sub eo (ec (length x - 1)%nat) ->
  tube_ok a b (map_loop ec ei eo x).
Proof.
  intros H H1 H2 H3 H4. eapply tube_ok_dom; eauto using map_loop_dom, map_loop_shared.
  apply Forall_nth. intros k s. rewrite map_loop_nth. destruct (nth_error x k) as [s0|] eqn:E; [|discriminate].
  intros Hs; inversion Hs; subst; clear Hs. destruct (H1 _ _ E) as (W1 & W2 & S1).
  assert (k < length x)%nat as Hk by (apply nth_error_Some; congruence).
  destruct (Nat.eqb_spec (S k) (length x)) as [e|e].
  - rewrite <- e in H4. replace (S k - 1)%nat with k in H4 by lia. repeat split; simpl; auto.
  - destruct (nth_error x (S k)) as [s1|] eqn:E1; [|apply nth_error_None in E1; lia].
    destruct (H1 _ _ E1) as (V1 & V2 & T1). repeat split; simpl; auto. eapply H2; eauto.
Qed.

Lemma map_loop_has a b ec ei eo x f : chain_from a x b ->
  (forall k s, nth_error x k = Some s ->
     In (f (s_lb s)) (ei k) /\ (forall t, s_lb s < t < s_ub s -> In (f t) (ec k)) /\
     (S k = length x -> In (f (s_ub s)) eo)) ->
  has (map_loop ec ei eo x) f.
Proof.
  intros Hc H. apply has_nth. intros k s. rewrite map_loop_nth.
  destruct (nth_error x k) as [s0|] eqn:E; [|discriminate].
  intros Hs; inversion Hs; subst; clear Hs. destruct (H _ _ E) as (H1 & H2 & H3).
  repeat split; simpl; auto.
  destruct (Nat.eqb_spec (S k) (length x)); auto.
  assert (k < length x)%nat as Hk by (apply nth_error_Some; congruence).
  destruct (nth_error x (S k)) as [s1|] eqn:E1; [|apply nth_error_None in E1; lia].
  rewrite (chain_from_nth _ _ _ _ _ _ Hc E E1). apply H; auto.
Qed.

(** Reading a trajectory of the result back. *)
Lemma has_map_loop ec ei eo x f : has (map_loop ec ei eo x) f ->
  forall k s, nth_error x k = Some s ->
     In (f (s_lb s)) (ei k) /\ (forall t, s_lb s < t < s_ub s -> In (f t) (ec k)) /\
     In (f (s_ub s)) (if Nat.eqb (S k) (length x) then eo else ei (S k)).
Proof.
  intros H k s E. rewrite has_nth in H. specialize (H k). rewrite map_loop_nth, E in H. simpl in H.
  specialize (H _ eq_refl). destruct H as (H1 & H2 & H3). simpl in *. auto.
Qed.

Lemma nth_error_last {A} (x : list A) : x <> [] -> exists s, nth_error x (length x - 1) = Some s.
Proof.
  intros H. destruct (nth_error x (length x - 1)) eqn:E; [eauto|].
  apply nth_error_None in E. destruct x; [congruence|]. simpl in *; lia.
Qed.

(** ** unary operators *)
Theorem tube_unary_has a b F x f g (Rop : R -> R -> Prop) :
  (forall v w X, In v X -> Rop v w -> In w (F X)) ->
  tube_ok a b x -> has x f -> (forall t, a <= t <= b -> Rop (f t) (g t)) ->
  has (tube_unary F x) g.
Proof.
  intros HF H Hf Hr. eapply map_loop_has; [apply H|]. intros k s E.
  rewrite (sl_nth _ _ _ E).
  assert (List.In s x) as Hin by (eapply nth_error_In; eauto).
  destruct (chain_in_bounds _ _ _ _ (ok_chain _ _ _ H) Hin) as (B1 & B2 & B3).
  destruct (Hf _ Hin) as (F1 & F2 & F3). split; [|split].
  - eapply HF; [exact F1|]. apply Hr; lra.
  - intros t Ht. apply (HF (f t)); [apply F3; lra|]. apply Hr; lra.
  - intros Hk. rewrite <- Hk. replace (S k - 1)%nat with k by lia. rewrite (sl_nth _ _ _ E).
    eapply HF; [exact F2|]. apply Hr; lra.
Qed.

(** ** same slicing *)
Lemma same_slicing_dom : forall x y, same_slicing x y = true <-> map dom x = map dom y.
Proof.
  induction x as [|s x IH]; intros [|s' y]; simpl; try (intuition discriminate).
  rewrite andb_true_iff, IH. split.
  - intros [H1 H2]. rewrite !andb_true_iff, !Reqb_true in H1. destruct H1. f_equal; auto.
    unfold dom; congruence.
  - intros H. injection H; intros H1 H2 H3. rewrite H2, H3, !Reqb_refl. auto.
Qed.
Lemma nth_dom x y k s : map dom x = map dom y -> nth_error x k = Some s ->
  exists s', nth_error y k = Some s' /\ s_lb s' = s_lb s /\ s_ub s' = s_ub s.
Proof.
  intros H E. assert (nth_error (map dom x) k = Some (dom s)) as E1 by (rewrite nth_error_map, E; auto).
  rewrite H, nth_error_map in E1. destruct (nth_error y k) as [s'|]; [|discriminate].
  simpl in E1. inversion E1. exists s'; auto.
Qed.
Lemma length_dom x y : map dom x = map dom y -> length x = length y.
Proof. intros H. rewrite <- (map_length dom x), H, map_length; auto. Qed.

(** the slice-wise branch, shared by [tube_binary] and [tube_assign] *)
Lemma zip_has a b F x1 x2 y f1 f2 g (Rop : R -> R -> R -> Prop) :
  (forall v1 v2 w X1 X2, In v1 X1 -> In v2 X2 -> Rop v1 v2 w -> In w (F X1 X2)) ->
  chain_from a y b -> map dom x1 = map dom y -> map dom x2 = map dom y ->
  has x1 f1 -> has x2 f2 -> (forall t, a <= t <= b -> Rop (f1 t) (f2 t) (g t)) ->
  has (map_loop (fun k => F (s_cod (sl x1 k)) (s_cod (sl x2 k)))
                (fun k => F (s_in (sl x1 k)) (s_in (sl x2 k)))
                (F (s_out (sl x1 (length y - 1))) (s_out (sl x2 (length y - 1)))) y) g.
Proof.
  intros HF Hc D1 D2 H1 H2 Hr. eapply map_loop_has; [exact Hc|]. intros k s E.
  destruct (nth_dom y x1 k s) as (s1 & E1 & L1 & U1); auto.
  destruct (nth_dom y x2 k s) as (s2 & E2 & L2 & U2); auto.
  rewrite (sl_nth _ _ _ E1), (sl_nth _ _ _ E2).
  assert (List.In s y) as Hin by (eapply nth_error_In; eauto).
  destruct (chain_in_bounds _ _ _ _ Hc Hin) as (B1 & B2 & B3).
  rewrite has_nth in H1, H2. destruct (H1 _ _ E1) as (F1 & F2 & F3). destruct (H2 _ _ E2) as (G1 & G2 & G3).
  rewrite L1, U1 in *. rewrite L2, U2 in *.
  split; [|split].
  - eapply HF; eauto. apply Hr; lra.
  - intros t Ht. apply (HF (f1 t) (f2 t)); [apply F3; lra|apply G3; lra|]. apply Hr; lra.
  - intros Hk. rewrite <- Hk. replace (S k - 1)%nat with k by lia.
    rewrite (sl_nth _ _ _ E1), (sl_nth _ _ _ E2). eapply HF; eauto. apply Hr; lra.
Qed.

(** ** sampling: set of gate instants *)
Definition ubs (x : tube) := map s_ub x.
Lemma sample_ubs a b x t : tube_ok a b x -> a <= t <= b ->
  forall u, List.In u (ubs (sample t x)) <-> List.In u (ubs x) \/ (u = t /\ a < t).
Proof.
  intros H Ht u. destruct (sample_shape x a b t) as [E|(l1 & s & l2 & E1 & E2 & E3)]; try apply H; auto.
  - rewrite E. split; auto. intros [Hu|[-> Ht']]; auto.
    (* t is already a bound: the model returned x unchanged *)
    destruct H as [H1 H2 H3 H4]. revert a b H2 H3 H4 Ht Ht' E.
    induction x as [|s r IH]; intros; [congruence|].
    simpl in H2. destruct H2 as (Ha & Hlt & Hc). simpl in E.
    assert (slice_ok s) as Hos by (inversion H4; auto).
    destruct (Rltb t (s_ub s)) eqn:El.
    + rewrite sample_slice_eq in E by auto.
      destruct (Reqb (s_lb s) t) eqn:E1; [apply Reqb_true in E1; lra|].
      destruct (Reqb (s_ub s) t) eqn:E2; [apply Reqb_true in E2; left; auto|].
      simpl in E. exfalso. inversion E. apply Reqb_false in E2. destruct s; simpl in *; congruence.
    + apply Rltb_false in El. destruct r as [|s2 r].
      * simpl in Hc. left. lra.
      * destruct (Req_EM_T t (s_ub s)); [left; auto|]. right.
        injection E; intros E'. apply (IH ltac:(discriminate) (s_ub s) b); auto; try lra.
        exact (proj2 H3). inversion H4; auto.
  - rewrite E3, E1. unfold ubs. rewrite !map_app, !in_app_iff. simpl.
    assert (a < t) by (destruct (chain_in_bounds _ _ _ s (ok_chain _ _ _ H)); [rewrite E1; apply in_elt|lra]).
    intuition.
Qed.

Lemma chain_ubs : forall x a b, chain_from a x b -> forall u, List.In u (ubs x) -> a < u <= b.
Proof.
  intros x a b H u Hu. unfold ubs in Hu. apply in_map_iff in Hu. destruct Hu as (s & <- & Hs).
  destruct (chain_in_bounds _ _ _ _ H Hs); lra.
Qed.

(** a partition is determined by its set of gates *)
Lemma chain_ubs_ext : forall x y a b, chain_from a x b -> chain_from a y b ->
  (forall u, List.In u (ubs x) <-> List.In u (ubs y)) -> map dom x = map dom y.
Proof.
  induction x as [|s x IH]; intros [|s' y] a b Hx Hy H; auto.
  - exfalso. apply (H (s_ub s')). left; auto.
  - exfalso. apply (H (s_ub s)). left; auto.
  - simpl in Hx, Hy. destruct Hx as (A1 & L1 & C1). destruct Hy as (A2 & L2 & C2).
    assert (s_ub s = s_ub s') as EU.
    { destruct (proj1 (H (s_ub s))) as [E|E]; [left; auto|auto|].
      destruct (proj2 (H (s_ub s'))) as [E'|E']; [left; auto|auto|].
      pose proof (chain_ubs _ _ _ C2 _ E). pose proof (chain_ubs _ _ _ C1 _ E'). lra. }
    simpl. f_equal. { unfold dom; congruence. }
    apply (IH y (s_ub s) b); auto. { rewrite EU; auto. }
    intros u. split; intros Hu.
    + pose proof (chain_ubs _ _ _ C1 _ Hu). destruct (proj1 (H u)) as [E|E]; [right; auto| |auto]. lra.
    + pose proof (chain_ubs _ _ _ C2 _ Hu). destruct (proj2 (H u)) as [E|E]; [right; auto| |auto]. lra.
Qed.

Lemma sample_as_gen : forall y a b x, tube_ok a b x -> (forall s, List.In s y -> a < s_ub s <= b) ->
  tube_ok a b (sample_as x y) /\
  (forall u, List.In u (ubs (sample_as x y)) <-> List.In u (ubs x) \/ List.In u (ubs y)) /\
  (forall f, has (sample_as x y) f <-> has x f).
Proof.
  unfold sample_as. induction y as [|s y IH]; intros a b x H Hy; simpl.
  - split; [exact H|split; [intros u; tauto|tauto]].
  - assert (a < s_ub s <= b) as Hs by (apply Hy; left; auto).
    assert (tube_ok a b (sample (s_ub s) x)) as H1 by (apply sample_ok; auto; lra).
    destruct (IH a b _ H1) as (I1 & I2 & I3). { intros; apply Hy; right; auto. }
    split; [auto|split].
    + intros u. rewrite I2. rewrite (sample_ubs a b) by (auto; lra). intuition.
    + intros f. rewrite I3. apply (sample_has a b); auto; lra.
Qed.
Lemma sample_as_spec a b x y : tube_ok a b x -> tube_ok a b y ->
  tube_ok a b (sample_as x y) /\
  (forall u, List.In u (ubs (sample_as x y)) <-> List.In u (ubs x) \/ List.In u (ubs y)) /\
  (forall f, has (sample_as x y) f <-> has x f).
Proof.
  intros H H'. apply sample_as_gen; auto. intros s Hs.
  destruct (chain_in_bounds _ _ _ _ (ok_chain _ _ _ H') Hs). lra.
Qed.

(** ** binary operators *)
Theorem tube_binary_has a b F x1 x2 f1 f2 g (Rop : R -> R -> R -> Prop) :
  (forall v1 v2 w X1 X2, In v1 X1 -> In v2 X2 -> Rop v1 v2 w -> In w (F X1 X2)) ->
  tube_ok a b x1 -> tube_ok a b x2 ->
  has x1 f1 -> has x2 f2 -> (forall t, a <= t <= b -> Rop (f1 t) (f2 t) (g t)) ->
  has (tube_binary F x1 x2) g.
Proof.
  intros HF O1 O2 H1 H2 Hr. unfold tube_binary. destruct (same_slicing x1 x2) eqn:E.
  - apply same_slicing_dom in E. eapply zip_has; eauto. apply O1.
  - destruct (sample_as_spec a b x1 x2 O1 O2) as (P1 & P2 & P3).
    destruct (sample_as_spec a b x2 x1 O2 O1) as (Q1 & Q2 & Q3).
    destruct (sample_as_spec a b x1 (sample_as x2 x1) O1 Q1) as (S1 & S2 & S3).
    eapply (zip_has a b); eauto.
    + apply S1.
    + eapply chain_ubs_ext; [apply P1|apply S1|]. intros u. rewrite P2, S2, Q2. tauto.
    + eapply chain_ubs_ext; [apply Q1|apply S1|]. intros u. rewrite S2, Q2. tauto.
    + apply P3; auto.
    + apply Q3; auto.
Qed.

(** exactness: a trajectory of the result is, instant by instant, in the image of the operands' values *)
Lemma zip_has_inv a b F x1 x2 y g :
  chain_from a y b -> y <> [] -> map dom x1 = map dom y -> map dom x2 = map dom y ->
  gates_shared x1 -> gates_shared x2 ->
  has (map_loop (fun k => F (s_cod (sl x1 k)) (s_cod (sl x2 k)))
                (fun k => F (s_in (sl x1 k)) (s_in (sl x2 k)))
                (F (s_out (sl x1 (length y - 1))) (s_out (sl x2 (length y - 1)))) y) g ->
  forall k s1 s2, nth_error x1 k = Some s1 -> nth_error x2 k = Some s2 ->
    In (g (s_lb s1)) (F (s_in s1) (s_in s2)) /\ In (g (s_ub s1)) (F (s_out s1) (s_out s2)) /\
    (forall t, s_lb s1 < t < s_ub s1 -> In (g t) (F (s_cod s1) (s_cod s2))).
Proof.
  intros Hc Hne D1 D2 G1 G2 H k s1 s2 E1 E2.
  destruct (nth_dom x1 y k s1) as (s & E & L & U); auto.
  destruct (has_map_loop _ _ _ _ _ H k s E) as (A1 & A2 & A3).
  rewrite (sl_nth _ _ _ E1), (sl_nth _ _ _ E2) in *. rewrite L, U in *.
  split; [auto|split; auto].
  destruct (Nat.eqb_spec (S k) (length y)) as [e|e].
  - rewrite <- e in A3. replace (S k - 1)%nat with k in A3 by lia.
    rewrite (sl_nth _ _ _ E1), (sl_nth _ _ _ E2) in A3. auto.
  - assert (k < length y)%nat as Hk by (apply nth_error_Some; congruence).
    destruct (nth_error y (S k)) as [t|] eqn:Et; [|apply nth_error_None in Et; lia].
    destruct (nth_dom y x1 (S k) t) as (t1 & T1 & _); auto.
    destruct (nth_dom y x2 (S k) t) as (t2 & T2 & _); auto.
    rewrite (sl_nth _ _ _ T1), (sl_nth _ _ _ T2) in A3.
    rewrite gates_shared_nth in G1, G2. rewrite (G1 _ _ _ E1 T1), (G2 _ _ _ E2 T2). auto.
Qed.

(** ** evaluation on an interval *)
Lemma slice_has_closed s f : slice_ok s -> slice_has s f ->
  forall t, s_lb s <= t <= s_ub s -> In (f t) (s_cod s).
Proof.
  intros (W1 & W2 & W3 & S1 & S2) (F1 & F2 & F3) t Ht.
  destruct (Req_EM_T t (s_lb s)); [subst; auto|]. destruct (Req_EM_T t (s_ub s)); [subst; auto|].
  apply F3; lra.
Qed.
Lemma idx_le : forall x t k s, nth_error x k = Some s -> t < s_ub s -> (time_to_index t x <= k)%nat.
Proof.
  induction x as [|s0 r IH]; intros t k s E Ht; [destruct k; discriminate|].
  simpl. destruct (Rltb t (s_ub s0)) eqn:El; [lia|]. destruct r as [|s1 r]; [lia|].
  destruct k; simpl in E. { inversion E; subst. apply Rltb_false in El. lra. }
  specialize (IH _ _ _ E Ht). lia.
Qed.
Lemma idx_ge : forall x a b t k s, chain_from a x b -> nth_error x k = Some s -> s_lb s <= t -> (k <= time_to_index t x)%nat.
Proof.
  induction x as [|s0 r IH]; intros a b t k s Hc E Ht; [destruct k; discriminate|].
  destruct k; [lia|]. simpl in E. simpl in Hc. destruct Hc as (Ha & Hlt & Hc).
  assert (List.In s r) as Hin by (eapply nth_error_In; eauto).
  destruct (chain_in_bounds _ _ _ _ Hc Hin).
  simpl. destruct (Rltb t (s_ub s0)) eqn:El. { apply Rltb_true in El. lra. }
  destruct r as [|s1 r]; [destruct k; discriminate|]. specialize (IH _ _ _ _ _ Hc E Ht). lia.
Qed.
Lemma idx_spec x a b t : chain_from a x b -> x <> [] -> a <= t <= b ->
  exists s, nth_error x (time_to_index t x) = Some s /\ s_lb s <= t <= s_ub s /\ (t = s_ub s -> t = b).
Proof.
  intros Hc Hne Ht. destruct (slice_find_spec x a b t Hc Hne Ht) as (s & E & _ & H1 & H2).
  exists s. rewrite slice_find_index in E by auto. auto.
Qed.
Lemma nth_error_skipn' {A} : forall (l : list A) i k, nth_error (skipn i l) k = nth_error l (i + k).
Proof. induction l; intros [|i] k; simpl; auto. destruct k; auto. Qed.
Lemma nth_error_firstn' {A} : forall (l : list A) i k, (k < i)%nat -> nth_error (firstn i l) k = nth_error l k.
Proof. induction l; intros [|i] k H; simpl; auto; try lia. destruct k; simpl; auto. apply IHl; lia. Qed.
Lemma In_fold_hull v : forall l acc, (In v acc \/ exists i, List.In i l /\ In v i) -> In v (fold_left hull l acc).
Proof.
  induction l as [|i l IH]; intros acc H; simpl.
  - destruct H as [H|(i & [] & _)]; auto.
  - apply IH. destruct H as [H|(j & [->|Hj] & H)].
    + left. apply In_hull_l; auto.
    + left. apply In_hull_r; auto.
    + right. eauto.
Qed.
Lemma wf_fold_hull : forall l acc, wf acc -> Forall wf l -> wf (fold_left hull l acc).
Proof. induction l; intros acc H HF; simpl; auto. inversion HF; subst. apply IHl; auto. apply wf_hull; auto. Qed.
Lemma fold_hull_least k : forall l acc, wf acc -> Forall wf l -> sub acc k -> (forall i, List.In i l -> sub i k) -> sub (fold_left hull l acc) k.
Proof.
  induction l as [|i l IH]; intros acc H HF Ha Hl; simpl; auto. inversion HF; subst.
  apply IH; auto using wf_hull. apply hull_least; auto. apply Hl; left; auto. intros; apply Hl; right; auto.
Qed.

(** which slices the interval evaluation visits *)
Definition visited (x : tube) (u v : R) (k : nat) : Prop :=
  (time_to_index u x <= k)%nat /\
  (k < match nth_error x (time_to_index v x) with
       | Some s => if Reqb (s_lb s) v then time_to_index v x else S (time_to_index v x)
       | None => S (time_to_index v x) end)%nat.
Lemma visited_in x u v k s (F : slice -> itv) : visited x u v k -> nth_error x k = Some s ->
  List.In (F s) (map F (firstn ((match nth_error x (time_to_index v x) with
       | Some s => if Reqb (s_lb s) v then time_to_index v x else S (time_to_index v x)
       | None => S (time_to_index v x) end) - time_to_index u x) (skipn (time_to_index u x) x))).
Proof.
  intros [H1 H2] E. apply in_map. apply nth_error_In with (n := (k - time_to_index u x)%nat).
  rewrite nth_error_firstn' by lia. rewrite nth_error_skipn'. replace (time_to_index u x + (k - time_to_index u x))%nat with k by lia. auto.
Qed.
(** every instant of [u,v] (u<v) is in the domain of a visited slice *)
Lemma visited_cover x a b u v t : chain_from a x b -> x <> [] -> a <= u -> u < v -> v <= b -> u <= t <= v ->
  exists k s, visited x u v k /\ nth_error x k = Some s /\ s_lb s <= t <= s_ub s.
Proof.
  intros Hc Hne Hu Huv Hv Ht.
  destruct (idx_spec x a b v) as (sv & Ev & B1 & B2); auto; try lra.
  destruct (idx_spec x a b t) as (st & Et & C1 & C2); auto; try lra.
  destruct (idx_spec x a b u) as (su & Eu & D1 & D2); auto; try lra.
  destruct (Req_EM_T (s_lb sv) v) as [e|e].
  - destruct (Req_EM_T t v) as [->|n].
    + (* previous slice *)
      destruct (time_to_index v x) as [|k] eqn:Ek.
      { destruct x as [|s0 r]; [congruence|]. simpl in Ev. inversion Ev; subst. simpl in Hc. lra. }
      assert (k < length x)%nat as Hk. { assert (S k < length x)%nat by (apply nth_error_Some; congruence). lia. }
      destruct (nth_error x k) as [sk|] eqn:Es; [|apply nth_error_None in Es; lia].
      pose proof (chain_from_nth _ _ _ _ _ _ Hc Es Ev) as EU.
      assert (List.In sk x) as Hin by (eapply nth_error_In; eauto).
      destruct (chain_in_bounds _ _ _ _ Hc Hin) as (F1 & F2 & F3).
      exists k, sk. split; [|split; auto; lra].
      unfold visited. rewrite Ek, Ev. replace (Reqb (s_lb sv) v) with true by (symmetry; apply Reqb_true; auto).
      split; [|lia]. eapply idx_le; eauto. lra.
    + exists (time_to_index t x), st. split; [|split; auto].
      unfold visited. rewrite Ev. replace (Reqb (s_lb sv) v) with true by (symmetry; apply Reqb_true; auto).
      split.
      * apply (idx_ge x a b t _ su); auto. lra.
      * assert (time_to_index t x <> time_to_index v x). { intros e'. rewrite e', Ev in Et. inversion Et; subst. lra. }
        assert (time_to_index t x <= time_to_index v x)%nat. { apply (idx_ge x a b v _ st); auto; lra. }
        lia.
  - exists (time_to_index t x), st. split; [|split; auto].
    unfold visited. rewrite Ev. replace (Reqb (s_lb sv) v) with false by (symmetry; apply Reqb_false; auto).
    split.
    + apply (idx_ge x a b t _ su); auto. lra.
    + assert (time_to_index t x <= time_to_index v x)%nat. { apply (idx_ge x a b v _ st); auto; lra. }
      lia.
Qed.

Theorem eval_itv_in a b x f i t : tube_ok a b x -> has x f -> In t i -> In (f t) (eval_itv x i).
Proof.
  intros H Hf Ht. destruct i as [|[u|] [v|]]; simpl in *; auto using In_ALL.
  rewrite (chain_t0 x a b), (chain_tf x a b) by apply H.
  destruct (Rltb u a) eqn:E1; [apply In_ALL|]. destruct (Rltb b v) eqn:E2; [apply In_ALL|]. simpl.
  apply Rltb_false in E1. apply Rltb_false in E2.
  destruct (Reqb u v) eqn:E3.
  { apply Reqb_true in E3. assert (t = u) by lra. subst. apply (eval_t_in a b); auto. }
  apply Reqb_false in E3.
  destruct (visited_cover x a b u v t) as (k & s & V & E & B); try apply H; try lra.
  apply In_fold_hull. right. exists (s_cod s). split. { apply (visited_in x u v k s s_cod); auto. }
  assert (List.In s x) as Hin by (eapply nth_error_In; eauto).
  apply slice_has_closed; auto. pose proof (ok_slices _ _ _ H) as HF. rewrite Forall_forall in HF; auto.
Qed.

Theorem codomain_in a b x f t : tube_ok a b x -> has x f -> a <= t <= b -> In (f t) (codomain x).
Proof.
  intros H Hf Ht. destruct (idx_spec x a b t) as (s & E & B & _); try apply H; auto.
  assert (List.In s x) as Hin by (eapply nth_error_In; eauto).
  unfold codomain. apply In_fold_hull. right. exists (s_cod s). split; [apply in_map; auto|].
  apply slice_has_closed; auto. pose proof (ok_slices _ _ _ H) as HF. rewrite Forall_forall in HF; auto.
Qed.

(** evaluation is monotone from an instant to an interval *)
Lemma eval_t_sub_itv a b x u v t : tube_ok a b x -> u <= t <= v -> sub (eval_t x t) (eval_itv x (Itv (Some u) (Some v))).
Proof.
  intros H Ht. unfold eval_itv. rewrite (chain_t0 x a b), (chain_tf x a b) by apply H.
  destruct (Rltb u a) eqn:E1; [apply sub_ALL|]. destruct (Rltb b v) eqn:E2; [apply sub_ALL|]. simpl.
  apply Rltb_false in E1. apply Rltb_false in E2.
  destruct (Reqb u v) eqn:E3.
  { apply Reqb_true in E3. assert (t = u) by lra. subst. apply sub_refl. }
  apply Reqb_false in E3.
  intros w Hw. unfold eval_t, slice_at in Hw.
  assert (in_tdomain x t = true) as Ed by (apply (in_tdomain_true x a b); try apply H; lra).
  rewrite Ed in Hw.
  destruct (visited_cover x a b u v t) as (k & s & V & E & B); try apply H; try lra.
  apply In_fold_hull. right. exists (s_cod s). split. { apply (visited_in x u v k s s_cod); auto. }
  assert (List.In s x) as Hin by (eapply nth_error_In; eauto).
  pose proof (ok_slices _ _ _ H) as HF. rewrite Forall_forall in HF.
  pose proof (HF _ Hin) as (W1 & W2 & W3 & S1 & S2).
  destruct (idx_spec x a b t) as (st & Et & C1 & C2); try apply H; try lra.
  rewrite slice_find_index, Et in Hw by apply H.
  assert (List.In st x) as Hin' by (eapply nth_error_In; eauto).
  pose proof (HF _ Hin') as (V1 & V2 & V3 & T1 & T2).
  (* the slice found at t and the visited slice share t *)
  assert (k = time_to_index t x \/ S k = time_to_index t x /\ t = s_ub s) as [Ek|[Ek Et2]].
  { assert (k <= time_to_index t x)%nat by (apply (idx_ge x a b t k s); try apply H; auto; lra).
    destruct (Rlt_dec t (s_ub s)). { left. pose proof (idx_le _ _ _ _ E r). lia. }
    assert (t = s_ub s) as Eu by lra.
    destruct (nth_error x (S k)) as [s'|] eqn:E'.
    - right. split; auto. pose proof (chain_from_nth _ _ _ _ _ _ (ok_chain _ _ _ H) E E') as El.
      assert (List.In s' x) as Hin2 by (eapply nth_error_In; eauto).
      destruct (chain_in_bounds _ _ _ _ (ok_chain _ _ _ H) Hin2) as (G1 & G2 & G3).
      assert (S k <= time_to_index t x)%nat by (apply (idx_ge x a b t (S k) s'); try apply H; auto; lra).
      assert (time_to_index t x <= S k)%nat by (eapply idx_le; eauto; lra). lia.
    - left. apply nth_error_None in E'. assert (time_to_index t x < length x)%nat by (apply nth_error_Some; congruence). lia. }
  - subst k. rewrite Et in E. inversion E; subst st. unfold slice_eval in Hw.
    destruct (Rleb (s_lb s) t && Rleb t (s_ub s)) eqn:Eb; simpl in Hw.
    2:{ exfalso. apply andb_false_iff in Eb. destruct Eb as [Eb|Eb]; apply Rleb_false in Eb; lra. }
    destruct (Reqb t (s_lb s)); auto. destruct (Reqb t (s_ub s)); auto.
  - pose proof (chain_from_nth _ _ _ k s st (ok_chain _ _ _ H) E) as El. rewrite Ek in El. specialize (El Et).
    pose proof (ok_shared _ _ _ H) as HS. rewrite gates_shared_nth in HS. specialize (HS k s st E). rewrite Ek in HS. specialize (HS Et).
    unfold slice_eval in Hw. destruct (chain_in_bounds _ _ _ _ (ok_chain _ _ _ H) Hin').
    replace (Rleb (s_lb st) t && Rleb t (s_ub st)) with true in Hw.
    2:{ symmetry; apply andb_true_iff; rewrite !Rleb_true; lra. }
    simpl in Hw. replace (Reqb t (s_lb st)) with true in Hw by (symmetry; apply Reqb_true; lra).
    apply S2. rewrite HS. auto.
Qed.

(** ** assignment operators *)
Theorem tube_assign_has a b F x1 x2 f1 f2 g (Rop : R -> R -> R -> Prop) :
  (forall v1 v2 w X1 X2, In v1 X1 -> In v2 X2 -> Rop v1 v2 w -> In w (F X1 X2)) ->
  tube_ok a b x1 -> tube_ok a b x2 ->
  has x1 f1 -> has x2 f2 -> (forall t, a <= t <= b -> Rop (f1 t) (f2 t) (g t)) ->
  has (tube_assign F x1 x2) g.
Proof.
  intros HF O1 O2 H1 H2 Hr. unfold tube_assign. destruct (same_slicing x1 x2) eqn:E.
  - apply same_slicing_dom in E. eapply zip_has; eauto. apply O1.
  - eapply map_loop_has; [apply O1|]. intros k s Es. rewrite (sl_nth _ _ _ Es).
    assert (List.In s x1) as Hin by (eapply nth_error_In; eauto).
    destruct (chain_in_bounds _ _ _ _ (ok_chain _ _ _ O1) Hin) as (B1 & B2 & B3).
    destruct (H1 _ Hin) as (F1 & F2 & F3). split; [|split].
    + apply (HF _ (f2 (s_lb s)) _ _ _ F1); [eapply eval_t_in; eauto|apply Hr; lra].
    + intros t Ht. apply (HF (f1 t) (f2 t)); [apply F3; auto| |apply Hr; lra].
      eapply eval_itv_in; eauto. simpl; lra.
    + intros Hk. rewrite <- Hk. replace (S k - 1)%nat with k by lia. rewrite (sl_nth _ _ _ Es).
      apply (HF _ (f2 (s_ub s)) _ _ _ F2); [eapply eval_t_in; eauto|apply Hr; lra].
Qed.

Lemma last_rank {A} (x : list A) k s : nth_error x k = Some s -> S k = length x -> (length x - 1)%nat = k.
Proof. lia. Qed.

Theorem tube_assign_traj_has a b F x tr f g h (Rop : R -> R -> R -> Prop) :
  (forall v1 v2 w X1 X2, In v1 X1 -> In v2 X2 -> Rop v1 v2 w -> In w (F X1 X2)) ->
  (forall i t, In t i -> In (h t) (tr i)) ->
  tube_ok a b x -> has x f -> (forall t, a <= t <= b -> Rop (f t) (h t) (g t)) ->
  has (tube_assign_traj F x tr) g.
Proof.
  intros HF Htr H Hf Hr. eapply map_loop_has; [apply H|]. intros k s E. rewrite (sl_nth _ _ _ E).
  assert (List.In s x) as Hin by (eapply nth_error_In; eauto).
  destruct (chain_in_bounds _ _ _ _ (ok_chain _ _ _ H) Hin) as (B1 & B2 & B3).
  destruct (Hf _ Hin) as (F1 & F2 & F3). split; [|split].
  - apply (HF _ (h (s_lb s)) _ _ _ F1); [apply Htr, In_pt; auto|apply Hr; lra].
  - intros t Ht. apply (HF (f t) (h t)); [apply F3; auto| |apply Hr; lra]. apply Htr; simpl; lra.
  - intros Hk. rewrite (last_rank x k s), (sl_nth _ _ _ E) by auto.
    apply (HF _ (h (s_ub s)) _ _ _ F2); [apply Htr, In_pt; auto|apply Hr; lra].
Qed.

(** well-formedness of results *)
Definition mono2 (F : itv -> itv -> itv) : Prop :=
  (forall X Y, wf X -> wf Y -> wf (F X Y)) /\
  (forall X X' Y Y', wf X -> wf X' -> wf Y -> wf Y' -> sub X X' -> sub Y Y' -> sub (F X Y) (F X' Y')).

Lemma zip_ok a b F x1 x2 y : mono2 F -> tube_ok a b y -> tube_ok a b x1 -> tube_ok a b x2 ->
  map dom x1 = map dom y -> map dom x2 = map dom y ->
  tube_ok a b (map_loop (fun k => F (s_cod (sl x1 k)) (s_cod (sl x2 k)))
                (fun k => F (s_in (sl x1 k)) (s_in (sl x2 k)))
                (F (s_out (sl x1 (length y - 1))) (s_out (sl x2 (length y - 1)))) y).
Proof.
  intros [M1 M2] Hy H1 H2 D1 D2.
  pose proof (ok_slices _ _ _ H1) as S1. pose proof (ok_slices _ _ _ H2) as S2.
  rewrite Forall_nth in S1, S2.
  assert (forall k s, nth_error y k = Some s -> exists s1 s2, nth_error x1 k = Some s1 /\ nth_error x2 k = Some s2 /\
     sl x1 k = s1 /\ sl x2 k = s2 /\ slice_ok s1 /\ slice_ok s2) as A.
  { intros k s E. destruct (nth_dom y x1 k s) as (s1 & E1 & _); auto. destruct (nth_dom y x2 k s) as (s2 & E2 & _); auto.
    exists s1, s2. rewrite (sl_nth _ _ _ E1), (sl_nth _ _ _ E2). repeat (split; eauto). }
  apply map_loop_ok; auto.
  - intros k s E. destruct (A _ _ E) as (s1 & s2 & E1 & E2 & -> & -> & (W1 & W2 & W3 & T1 & T2) & (V1 & V2 & V3 & U1 & U2)).
    repeat split; auto.
  - intros k s s' E E'.
    destruct (A _ _ E) as (s1 & s2 & E1 & E2 & -> & -> & (W1 & W2 & W3 & T1 & T2) & (V1 & V2 & V3 & U1 & U2)).
    destruct (A _ _ E') as (s1' & s2' & E1' & E2' & -> & -> & (W1' & W2' & W3' & T1' & T2') & (V1' & V2' & V3' & U1' & U2')).
    pose proof (ok_shared _ _ _ H1) as G1. pose proof (ok_shared _ _ _ H2) as G2. rewrite gates_shared_nth in G1, G2.
    rewrite <- (G1 _ _ _ E1 E1'), <- (G2 _ _ _ E2 E2'). apply M2; auto.
  - destruct (nth_error_last y) as [s E]; [apply Hy|].
    destruct (A _ _ E) as (s1 & s2 & E1 & E2 & -> & -> & (W1 & W2 & W3 & T1 & T2) & (V1 & V2 & V3 & U1 & U2)). auto.
  - destruct (nth_error_last y) as [s E]; [apply Hy|].
    destruct (A _ _ E) as (s1 & s2 & E1 & E2 & -> & -> & (W1 & W2 & W3 & T1 & T2) & (V1 & V2 & V3 & U1 & U2)). auto.
Qed.

Theorem tube_binary_ok a b F x1 x2 : mono2 F -> tube_ok a b x1 -> tube_ok a b x2 -> tube_ok a b (tube_binary F x1 x2).
Proof.
  intros HM O1 O2. unfold tube_binary. destruct (same_slicing x1 x2) eqn:E.
  - apply same_slicing_dom in E. apply zip_ok; auto.
  - destruct (sample_as_spec a b x1 x2 O1 O2) as (P1 & P2 & P3).
    destruct (sample_as_spec a b x2 x1 O2 O1) as (Q1 & Q2 & Q3).
    destruct (sample_as_spec a b x1 (sample_as x2 x1) O1 Q1) as (S1 & S2 & S3).
    apply zip_ok; auto.
    + eapply chain_ubs_ext; [apply P1|apply S1|]. intros u. rewrite P2, S2, Q2. tauto.
    + eapply chain_ubs_ext; [apply Q1|apply S1|]. intros u. rewrite S2, Q2. tauto.
Qed.

Lemma mono2_inter : mono2 inter.
Proof.
  split. { intros; apply wf_inter. } intros X X' Y Y' _ _ _ _ H1 H2 v Hv. apply In_inter in Hv. apply In_inter. split; [apply H1|apply H2]; tauto.
Qed.
Lemma mono2_hull : mono2 hull.
Proof.
  split. { intros; apply wf_hull; auto. } intros X X' Y Y' W1 _ W2 _ H1 H2. apply hull_least; auto; intros v Hv.
  apply In_hull_l; auto. apply In_hull_r; auto.
Qed.

(** exact intersection *)
Theorem tube_inter_has a b x1 x2 f : tube_ok a b x1 -> tube_ok a b x2 ->
  (has (tube_binary inter x1 x2) f <-> has x1 f /\ has x2 f).
Proof.
  intros O1 O2. split.
  - intros H. unfold tube_binary in H. destruct (same_slicing x1 x2) eqn:E.
    + apply same_slicing_dom in E.
      assert (forall k s1 s2, nth_error x1 k = Some s1 -> nth_error x2 k = Some s2 -> slice_has s1 f /\ slice_has s2 f) as A.
      { intros k s1 s2 E1 E2. destruct (nth_dom x1 x2 k s1) as (s2' & E2' & L & U); auto. rewrite E2 in E2'; inversion E2'; subst s2'.
        destruct (zip_has_inv a b inter x1 x2 x1 f) with (k := k) (s1 := s1) (s2 := s2) as (A1 & A2 & A3); auto; try apply O1; try apply O2.
        rewrite In_inter in A1, A2. assert (forall t, s_lb s1 < t < s_ub s1 -> In (f t) (s_cod s1) /\ In (f t) (s_cod s2)) as A4.
        { intros t Ht. apply In_inter, A3, Ht. }
        split; repeat split; try tauto; try (intros t Ht; apply A4; lra).
        - rewrite L; tauto. - rewrite U; tauto. }
      rewrite !has_nth. split; intros k s Es.
      * destruct (nth_dom x1 x2 k s) as (s2 & E2 & _); auto. exact (proj1 (A k s s2 Es E2)).
      * destruct (nth_dom x2 x1 k s) as (s1 & E1 & _); auto. exact (proj2 (A k s1 s E1 Es)).
    + destruct (sample_as_spec a b x1 x2 O1 O2) as (P1 & P2 & P3).
      destruct (sample_as_spec a b x2 x1 O2 O1) as (Q1 & Q2 & Q3).
      destruct (sample_as_spec a b x1 (sample_as x2 x1) O1 Q1) as (S1 & S2 & S3).
      assert (map dom (sample_as x1 x2) = map dom (sample_as x1 (sample_as x2 x1))) as D1.
      { eapply chain_ubs_ext; [apply P1|apply S1|]. intros u. rewrite P2, S2, Q2. tauto. }
      assert (map dom (sample_as x2 x1) = map dom (sample_as x1 (sample_as x2 x1))) as D2.
      { eapply chain_ubs_ext; [apply Q1|apply S1|]. intros u. rewrite S2, Q2. tauto. }
      rewrite <- P3, <- Q3.
      assert (forall k s1 s2, nth_error (sample_as x1 x2) k = Some s1 -> nth_error (sample_as x2 x1) k = Some s2 -> slice_has s1 f /\ slice_has s2 f) as A.
      { intros k s1 s2 E1 E2. destruct (nth_dom _ (sample_as x2 x1) k s1 (eq_trans D1 (eq_sym D2))) as (s2' & E2' & L & U); auto. rewrite E2 in E2'; inversion E2'; subst s2'.
        destruct (zip_has_inv a b inter _ _ _ f (ok_chain _ _ _ S1) (ok_ne _ _ _ S1) D1 D2 (ok_shared _ _ _ P1) (ok_shared _ _ _ Q1) H k s1 s2 E1 E2) as (A1 & A2 & A3).
        rewrite In_inter in A1, A2. assert (forall t, s_lb s1 < t < s_ub s1 -> In (f t) (s_cod s1) /\ In (f t) (s_cod s2)) as A4.
        { intros t Ht. apply In_inter, A3, Ht. }
        split; repeat split; try tauto; try (intros t Ht; apply A4; lra).
        - rewrite L; tauto. - rewrite U; tauto. }
      rewrite !has_nth. split; intros k s Es.
      * destruct (nth_dom _ (sample_as x2 x1) k s (eq_trans D1 (eq_sym D2))) as (s2 & E2 & _); auto. exact (proj1 (A k s s2 Es E2)).
      * destruct (nth_dom _ (sample_as x1 x2) k s (eq_trans D2 (eq_sym D1))) as (s1 & E1 & _); auto. exact (proj2 (A k s1 s E1 Es)).
  - intros [H1 H2]. eapply (tube_binary_has a b inter x1 x2 f f f (fun v1 v2 w => v1 = w /\ v2 = w)); auto.
    intros v1 v2 w X1 X2 I1 I2 [-> ->]. apply In_inter; auto.
Qed.

Theorem tube_hull_has_l a b x1 x2 f : tube_ok a b x1 -> tube_ok a b x2 -> has x1 f -> has (tube_binary hull x1 x2) f.
Proof.
  intros O1 O2 H1.
  assert (forall x1 x2 y, map dom x1 = map dom y -> map dom x2 = map dom y -> chain_from a y b -> has x1 f ->
    has (map_loop (fun k => hull (s_cod (sl x1 k)) (s_cod (sl x2 k)))
                (fun k => hull (s_in (sl x1 k)) (s_in (sl x2 k)))
                (hull (s_out (sl x1 (length y - 1))) (s_out (sl x2 (length y - 1)))) y) f) as A.
  { clear. intros x1 x2 y D1 D2 Hc H1. eapply map_loop_has; [exact Hc|]. intros k s E.
    destruct (nth_dom y x1 k s) as (s1 & E1 & L1 & U1); auto. rewrite has_nth in H1.
    destruct (H1 _ _ E1) as (F1 & F2 & F3). rewrite (sl_nth _ _ _ E1). rewrite L1, U1 in *. split; [|split].
    - apply In_hull_l; auto.
    - intros; apply In_hull_l; auto.
    - intros Hk. rewrite (last_rank y k s), (sl_nth _ _ _ E1) by auto. apply In_hull_l; auto. }
  unfold tube_binary. destruct (same_slicing x1 x2) eqn:E.
  - apply same_slicing_dom in E. apply A; auto. apply O1.
  - destruct (sample_as_spec a b x1 x2 O1 O2) as (P1 & P2 & P3).
    destruct (sample_as_spec a b x2 x1 O2 O1) as (Q1 & Q2 & Q3).
    destruct (sample_as_spec a b x1 (sample_as x2 x1) O1 Q1) as (S1 & S2 & S3).
    apply A.
    + eapply chain_ubs_ext; [apply P1|apply S1|]. intros u. rewrite P2, S2, Q2. tauto.
    + eapply chain_ubs_ext; [apply Q1|apply S1|]. intros u. rewrite S2, Q2. tauto.
    + apply S1.
    + apply P3; auto.
Qed.
Theorem tube_hull_has_r a b x1 x2 f : tube_ok a b x1 -> tube_ok a b x2 -> has x2 f -> has (tube_binary hull x1 x2) f.
Proof.
  intros O1 O2 H1.
  assert (forall x1 x2 y, map dom x1 = map dom y -> map dom x2 = map dom y -> chain_from a y b -> has x2 f ->
    has (map_loop (fun k => hull (s_cod (sl x1 k)) (s_cod (sl x2 k)))
                (fun k => hull (s_in (sl x1 k)) (s_in (sl x2 k)))
                (hull (s_out (sl x1 (length y - 1))) (s_out (sl x2 (length y - 1)))) y) f) as A.
  { clear. intros x1 x2 y D1 D2 Hc H1. eapply map_loop_has; [exact Hc|]. intros k s E.
    destruct (nth_dom y x2 k s) as (s1 & E1 & L1 & U1); auto. rewrite has_nth in H1.
    destruct (H1 _ _ E1) as (F1 & F2 & F3). rewrite (sl_nth _ _ _ E1). rewrite L1, U1 in *. split; [|split].
    - apply In_hull_r; auto.
    - intros; apply In_hull_r; auto.
    - intros Hk. rewrite (last_rank y k s), (sl_nth _ _ _ E1) by auto. apply In_hull_r; auto. }
  unfold tube_binary. destruct (same_slicing x1 x2) eqn:E.
  - apply same_slicing_dom in E. apply A; auto. apply O1.
  - destruct (sample_as_spec a b x1 x2 O1 O2) as (P1 & P2 & P3).
    destruct (sample_as_spec a b x2 x1 O2 O1) as (Q1 & Q2 & Q3).
    destruct (sample_as_spec a b x1 (sample_as x2 x1) O1 Q1) as (S1 & S2 & S3).
    apply A.
    + eapply chain_ubs_ext; [apply P1|apply S1|]. intros u. rewrite P2, S2, Q2. tauto.
    + eapply chain_ubs_ext; [apply Q1|apply S1|]. intros u. rewrite S2, Q2. tauto.
    + apply S1.
    + apply Q3; auto.
Qed.

Theorem tube_assign_inter a b x1 x2 f : tube_ok a b x1 -> tube_ok a b x2 ->
  (has x1 f -> has x2 f -> has (tube_assign inter x1 x2) f) /\
  (has (tube_assign inter x1 x2) f -> has x1 f).
Proof.
  intros O1 O2. split.
  - intros H1 H2. eapply (tube_assign_has a b inter x1 x2 f f f (fun v1 v2 w => v1 = w /\ v2 = w)); auto.
    intros v1 v2 w X1 X2 I1 I2 [-> ->]. apply In_inter; auto.
  - intros H. rewrite has_nth. intros k s E.
    assert (exists Y1 Y2 Y3 : itv, In (f (s_lb s)) (inter (s_in s) Y1) /\
      (forall t, s_lb s < t < s_ub s -> In (f t) (inter (s_cod s) Y2)) /\ In (f (s_ub s)) (inter (s_out s) Y3)) as (Y1 & Y2 & Y3 & A1 & A2 & A3).
    { unfold tube_assign in H.
      destruct (same_slicing x1 x2); destruct (has_map_loop _ _ _ _ _ H k s E) as (A1 & A2 & A3);
        rewrite (sl_nth _ _ _ E) in A1, A2;
        (destruct (Nat.eqb_spec (S k) (length x1)) as [e|e];
         [ rewrite (last_rank x1 k s E e), (sl_nth _ _ _ E) in A3; repeat eexists; eauto |
           assert (k < length x1)%nat as Hk by (apply nth_error_Some; congruence);
           destruct (nth_error x1 (S k)) as [s'|] eqn:E'; [|apply nth_error_None in E'; lia];
           rewrite (sl_nth _ _ _ E') in A3; pose proof (ok_shared _ _ _ O1) as G; rewrite gates_shared_nth in G;
           rewrite (G _ _ _ E E'); repeat eexists; eauto ]). }
    repeat split.
    + apply In_inter in A1; tauto.
    + apply In_inter in A3; tauto.
    + intros t Ht. specialize (A2 t Ht). apply In_inter in A2; tauto.
Qed.

Lemma map_loop_hull_has a b ec ei eo x f : chain_from a x b -> has x f -> 
  has (map_loop (fun k => hull (s_cod (sl x k)) (ec k)) (fun k => hull (s_in (sl x k)) (ei k))
        (hull (s_out (sl x (length x - 1))) eo) x) f.
Proof.
  intros Hc H. eapply map_loop_has; [exact Hc|]. intros k s E. rewrite (sl_nth _ _ _ E).
  rewrite has_nth in H. destruct (H _ _ E) as (F1 & F2 & F3). split; [|split]; intros; auto using In_hull_l.
  rewrite (last_rank x k s), (sl_nth _ _ _ E) by auto. apply In_hull_l; auto.
Qed.
Theorem tube_assign_hull a b x1 x2 f : tube_ok a b x1 -> tube_ok a b x2 ->
  (has x1 f \/ has x2 f) -> has (tube_assign hull x1 x2) f.
Proof.
  intros O1 O2 [H|H].
  - unfold tube_assign. destruct (same_slicing x1 x2); apply (map_loop_hull_has a b); auto; apply O1.
  - unfold tube_assign. destruct (same_slicing x1 x2) eqn:E.
    + pose proof (tube_hull_has_r a b x1 x2 f O1 O2 H) as A. unfold tube_binary in A. rewrite E in A. exact A.
    + eapply map_loop_has; [apply O1|]. intros k s Es. rewrite (sl_nth _ _ _ Es).
      assert (List.In s x1) as Hin by (eapply nth_error_In; eauto).
      destruct (chain_in_bounds _ _ _ _ (ok_chain _ _ _ O1) Hin) as (B1 & B2 & B3). split; [|split]; intros; apply In_hull_r.
      * eapply eval_t_in; eauto.
      * eapply eval_itv_in; eauto. simpl; lra.
      * rewrite (last_rank x1 k s), (sl_nth _ _ _ Es) by auto. eapply eval_t_in; eauto.
Qed.
