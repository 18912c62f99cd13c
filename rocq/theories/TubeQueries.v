(** * Proofs about tube queries: inversion, comparisons, contains, eval, truncation *)
From Coq Require Import Reals Lra Bool List Arith Lia ZArith.
From Verif Require Import Itv Arith Tube TubeSpec TubeFacts TubeOps TubeOpsFacts TubeOpsFacts2.
Import ListNotations.
Open Scope R_scope.
Local Arguments Nat.eqb : simpl never.
Local Arguments seq : simpl never.

(** ** inversion *)
Lemma slice_invert_in s f y search t : slice_ok s -> slice_has s f ->
  In t search -> s_lb s <= t <= s_ub s -> sub search (s_dom s) -> In (f t) y ->
  In t (slice_invert s y search).
Proof.
  intros Ok H Ht Hs Hsub Hy. unfold slice_invert.
  pose proof (slice_has_closed s f Ok H) as Hc. destruct H as (F1 & F2 & F3).
  destruct (is_empty search) eqn:E0. { apply is_empty_true in E0; subst; destruct Ht. }
  destruct (lb_lt search (s_lb s) || ub_gt search (s_ub s)); [apply In_ALL|].
  destruct (itv_eqb (inter (s_dom s) search) (s_dom s) && is_subset (s_cod s) y); [simpl; lra|].
  destruct (itv_eqb search (pt (s_lb s))) eqn:E1.
  { apply itv_eqb_true in E1; subst. apply In_pt in Ht; subst.
    replace (intersects y (s_in s)) with true; [apply In_pt; auto|]. symmetry. apply intersects_spec. eauto. }
  destruct (itv_eqb search (pt (s_ub s))) eqn:E2.
  { apply itv_eqb_true in E2; subst. apply In_pt in Ht; subst.
    replace (intersects y (s_out s)) with true; [apply In_pt; auto|]. symmetry. apply intersects_spec. eauto. }
  replace (intersects y (s_cod s)) with true.
  - apply In_inter. split; [exact Ht|simpl; lra].
  - symmetry. apply intersects_spec. exists (f t). split; auto.
Qed.

Lemma invert_loop_in : forall x y a b f k s t, (forall s', List.In s' x -> slice_ok s' /\ slice_has s' f) ->
  (forall j s', (j <= k)%nat -> nth_error x j = Some s' -> s_lb s' < b) ->
  nth_error x k = Some s -> a <= t <= b -> s_lb s <= t <= s_ub s -> In (f t) y ->
  In t (invert_loop x y a b).
Proof.
  induction x as [|s0 r IH]; intros y a b f k s t H Hlt E Ht Hs Hy; [destruct k; discriminate|].
  simpl. rewrite (proj2 (Rltb_true (s_lb s0) b)).
  2:{ apply (Hlt 0%nat); auto; lia. }
  destruct k; simpl in E.
  - inversion E; subst s0. apply In_hull_l. apply slice_invert_in with (f := f); auto; try apply H; try (left; auto; fail).
    + apply In_inter. split; [apply In_bnd; lra|simpl; lra].
    + apply sub_inter_r.
  - apply In_hull_r. apply (IH y a b f k s t); auto.
    + intros s' Hs'. apply H. right; auto.
    + intros j s' Hj Ej. apply (Hlt (S j)); auto. lia.
Qed.

Lemma ok_in a b x s : tube_ok a b x -> List.In s x -> slice_ok s.
Proof. intros H Hs. pose proof (ok_slices _ _ _ H) as HF. rewrite Forall_forall in HF; auto. Qed.

Lemma in_skipn {A} (l : list A) i v : List.In v (skipn i l) -> List.In v l.
Proof. revert l; induction i; intros [|a l]; simpl; auto. Qed.

(** Sound for a search domain that is not a single instant. *)
Theorem invert_in a b x f y u v t : tube_ok a b x -> has x f -> u < v ->
  u <= t <= v -> In (f t) y -> In t (invert x y (Itv (Some u) (Some v))).
Proof.
  intros H Hf Huv Ht Hy. unfold invert. rewrite (chain_t0 x a b), (chain_tf x a b) by apply H.
  destruct (Rltb u a) eqn:E1; [apply In_ALL|]. destruct (Rltb b v) eqn:E2; [apply In_ALL|]. simpl.
  apply Rltb_false in E1. apply Rltb_false in E2.
  destruct (visited_cover x a b u v t) as (k & s & [V1 V2] & E & B); try apply H; try lra.
  apply invert_loop_in with (f := f) (k := (k - time_to_index u x)%nat) (s := s); auto.
  - intros s' Hs'. apply in_skipn in Hs'. split; [eapply ok_in; eauto|auto].
  - intros j s' Hj Ej. rewrite nth_error_skipn' in Ej.
    destruct (idx_spec x a b v) as (sv & Ev & B1 & B2); try apply H; try lra. rewrite Ev in V2.
    destruct (Rlt_dec (s_lb s') v) as [|n]; auto. exfalso.
    pose proof (idx_le x v (time_to_index u x + j)%nat s' Ej) as Hle.
    assert (List.In s' x) as Hin by (eapply nth_error_In; eauto).
    destruct (chain_in_bounds _ _ _ _ (ok_chain _ _ _ H) Hin) as (G1 & G2 & G3).
    assert (time_to_index v x <= time_to_index u x + j)%nat as Hle2.
    { destruct (Req_EM_T (s_lb s') v). apply Hle; lra.
      apply (idx_le x v _ s' Ej). lra. }
    destruct (Reqb (s_lb sv) v) eqn:Er.
    + lia.
    + apply Reqb_false in Er.
      assert (time_to_index u x + j = time_to_index v x)%nat by lia. 
      rewrite H0, Ev in Ej. inversion Ej; subst. lra.
  - rewrite nth_error_skipn'. replace (time_to_index u x + (k - time_to_index u x))%nat with k by lia. auto.
Qed.

(** Single instant that is not the lower bound of a slice. *)
Theorem invert_in_point a b x f y t : tube_ok a b x -> has x f ->
  (forall s, List.In s x -> s_lb s <> t) -> In (f t) y -> In t (invert x y (pt t)).
Proof.
  intros H Hf Hn Hy. unfold invert, pt. rewrite (chain_t0 x a b), (chain_tf x a b) by apply H.
  destruct (Rltb t a) eqn:E1; [apply In_ALL|]. destruct (Rltb b t) eqn:E2; [apply In_ALL|]. simpl.
  apply Rltb_false in E1. apply Rltb_false in E2.
  destruct (idx_spec x a b t) as (s & E & B & _); try apply H; try lra.
  assert (List.In s x) as Hin by (eapply nth_error_In; eauto).
  apply invert_loop_in with (f := f) (k := 0%nat) (s := s); auto; try lra.
  - intros s' Hs'. apply in_skipn in Hs'. split; [eapply ok_in; eauto|auto].
  - intros j s' Hj Ej. assert (j = 0%nat) by lia. subst j. rewrite nth_error_skipn', Nat.add_0_r, E in Ej. inversion Ej; subst.
    specialize (Hn _ Hin). lra.
  - rewrite nth_error_skipn', Nat.add_0_r. auto.
Qed.

Lemma invert_list_cur t : forall x y a b cur, In t cur -> exists i, List.In i (invert_list_loop x y a b cur) /\ In t i.
Proof.
  induction x as [|s r IH]; intros y a b cur Ht; simpl.
  - destruct cur; [destruct Ht|]. simpl. eexists; split; [left; reflexivity|auto].
  - destruct (Rleb (s_lb s) b).
    + destruct (is_empty _ && negb _) eqn:E.
      * eexists; split; [left; reflexivity|auto].
      * apply IH. apply In_hull_l; auto.
    + destruct cur; [destruct Ht|]. simpl. eexists; split; [left; reflexivity|auto].
Qed.
Lemma invert_list_loop_in : forall x y a b f k s t cur, (forall s', List.In s' x -> slice_ok s' /\ slice_has s' f) ->
  (forall j s', (j <= k)%nat -> nth_error x j = Some s' -> s_lb s' <= b) ->
  nth_error x k = Some s -> a <= t <= b -> s_lb s <= t <= s_ub s -> In (f t) y ->
  exists i, List.In i (invert_list_loop x y a b cur) /\ In t i.
Proof.
  induction x as [|s0 r IH]; intros y a b f k s t cur H Hlt E Ht Hs Hy; [destruct k; discriminate|].
  simpl. rewrite (proj2 (Rleb_true (s_lb s0) b)).
  2:{ apply (Hlt 0%nat); auto; lia. }
  destruct k; simpl in E.
  - inversion E; subst s0.
    assert (In t (slice_invert s y (inter (bnd a b) (s_dom s)))) as Hin.
    { apply slice_invert_in with (f := f); auto; try apply H; try (left; auto; fail).
      + apply In_inter. split; [apply In_bnd; lra|simpl; lra].
      + apply sub_inter_r. }
    destruct (is_empty (slice_invert s y (inter (bnd a b) (s_dom s)))) eqn:Em.
    { apply is_empty_true in Em. rewrite Em in Hin. destruct Hin. }
    simpl. apply invert_list_cur. apply In_hull_r; auto.
  - assert (forall cur', exists i, List.In i (invert_list_loop r y a b cur') /\ In t i) as A.
    { intros cur'. apply (IH y a b f k s t); auto.
      + intros s' Hs'. apply H. right; auto.
      + intros j s' Hj Ej. apply (Hlt (S j)); auto. lia. }
    destruct (is_empty _ && _).
    + destruct (A Emp) as (i & H1 & H2). exists i; split; auto. right; auto.
    + apply A.
Qed.
Theorem invert_list_in a b x f y u v t : tube_ok a b x -> has x f ->
  u <= t <= v -> In (f t) y -> exists i, List.In i (invert_list x y (Itv (Some u) (Some v))) /\ In t i.
Proof.
  intros H Hf Ht Hy. unfold invert_list. rewrite (chain_t0 x a b), (chain_tf x a b) by apply H.
  destruct (Rltb u a) eqn:E1; [exists ALL; split; [left; auto|apply In_ALL]|].
  destruct (Rltb b v) eqn:E2; [exists ALL; split; [left; auto|apply In_ALL]|]. simpl.
  apply Rltb_false in E1. apply Rltb_false in E2.
  destruct (idx_spec x a b t) as (s & E & B & _); try apply H; try lra.
  destruct (idx_spec x a b u) as (su & Eu & Bu & _); try apply H; try lra.
  assert (time_to_index u x <= time_to_index t x)%nat as Hle by (apply (idx_ge x a b t _ su); auto; [apply H|lra]).
  apply invert_list_loop_in with (f := f) (k := (time_to_index t x - time_to_index u x)%nat) (s := s); auto.
  - intros s' Hs'. apply in_skipn in Hs'. split; [eapply ok_in; eauto|auto].
  - intros j s' Hj Ej. rewrite nth_error_skipn' in Ej.
    destruct (Rle_dec (s_lb s') v) as [|n]; auto. exfalso.
    assert (List.In s' x) as Hin by (eapply nth_error_In; eauto).
    destruct (chain_in_bounds _ _ _ _ (ok_chain _ _ _ H) Hin) as (G1 & G2 & G3).
    assert (time_to_index t x <= time_to_index u x + j)%nat by (apply (idx_le x t _ s' Ej); lra).
    assert (time_to_index u x + j = time_to_index t x)%nat as Eq by lia.
    rewrite Eq, E in Ej. inversion Ej; subst. lra.
  - rewrite nth_error_skipn'. replace (time_to_index u x + (time_to_index t x - time_to_index u x))%nat with (time_to_index t x) by lia. auto.
Qed.

(** ** comparisons *)
Lemma slice_neqb_false s s' : slice_neqb s s' = false <-> s = s'.
Proof.
  unfold slice_neqb. rewrite !orb_false_iff, !negb_false_iff, !itv_eqb_true. split.
  - intros [[[H1 H2] H3] H4]. destruct s, s'; simpl in *. unfold s_dom in H1; simpl in H1. inversion H1. subst. auto.
  - intros ->. auto.
Qed.
Theorem slice_neqb_eqb s s' : slice_neqb s s' = negb (slice_eqb s s').
Proof. unfold slice_neqb, slice_eqb. rewrite !negb_andb. auto. Qed.
Theorem tube_eqb_true x y : tube_eqb x y = true <-> x = y.
Proof.
  revert y. induction x as [|s x IH]; intros [|s' y]; simpl; try (intuition discriminate).
  destruct (slice_neqb s s') eqn:E.
  - split; [discriminate|]. intros H; inversion H; subst. assert (slice_neqb s' s' = false) by (apply slice_neqb_false; auto). congruence.
  - apply slice_neqb_false in E. subst. rewrite IH. split; [intros ->; auto|intros H; inversion H; auto].
Qed.
Theorem tube_neqb_eqb x y : tube_neqb x y = negb (tube_eqb x y).
Proof. revert y. induction x as [|s x IH]; intros [|s' y]; simpl; auto. destruct (slice_neqb s s'); auto. Qed.

Lemma slices_cmp_nth F : forall x y, length x = length y ->
  (slices_cmp F x y = true <-> forall k s1 s2, nth_error x k = Some s1 -> nth_error y k = Some s2 -> slice_cmp F s1 s2 = true).
Proof.
  induction x as [|s x IH]; intros [|s' y] Hl; simpl in *; try discriminate.
  - split; auto. intros _ k s1 s2 H; destruct k; discriminate.
  - rewrite andb_true_iff, IH by lia. split.
    + intros [H1 H2] [|k] s1 s2 E1 E2; simpl in *; [inversion E1; inversion E2; subst; auto|eauto].
    + intros H. split; [apply (H 0%nat); auto|]. intros k s1 s2 E1 E2; apply (H (S k)); auto.
Qed.

(** same slicing: is_subset means inclusion of each envelope and gate *)
Theorem subset_same_slicing a b x y : tube_ok a b x -> map dom x = map dom y ->
  (tube_is_subset x y = true <->
   forall k s1 s2, nth_error x k = Some s1 -> nth_error y k = Some s2 ->
     sub (s_cod s1) (s_cod s2) /\ sub (s_in s1) (s_in s2) /\ sub (s_out s1) (s_out s2)).
Proof.
  intros H D. unfold tube_is_subset, tube_cmp. rewrite (proj2 (same_slicing_dom x y) D).
  rewrite slices_cmp_nth by (apply length_dom; auto). unfold slice_cmp.
  split; intros A k s1 s2 E1 E2; specialize (A k s1 s2 E1 E2);
    assert (List.In s1 x) as Hin by (eapply nth_error_In; eauto); destruct (ok_in _ _ _ _ H Hin) as (W1 & W2 & W3 & _).
  - rewrite !andb_true_iff, !is_subset_spec in A by auto. tauto.
  - rewrite !andb_true_iff, !is_subset_spec by auto. tauto.
Qed.
Theorem subset_has a b x y f : tube_ok a b x -> map dom x = map dom y -> tube_is_subset x y = true -> has x f -> has y f.
Proof.
  intros H D HS Hf. rewrite (subset_same_slicing a b x y H D) in HS. rewrite has_nth in *. intros k s2 E2.
  destruct (nth_dom y x k s2) as (s1 & E1 & L & U); auto. destruct (HS _ _ _ E1 E2) as (A1 & A2 & A3).
  destruct (Hf _ _ E1) as (F1 & F2 & F3). rewrite L, U in *. repeat split; auto.
Qed.
(** superset: also sound for different slicings *)
Theorem superset_has a b x y f : tube_ok a b x -> tube_ok a b y -> tube_is_superset x y = true -> has y f -> has x f.
Proof.
  intros H H' HS Hf. unfold tube_is_superset, tube_cmp in HS. destruct (same_slicing x y) eqn:E.
  - apply same_slicing_dom in E. apply (subset_has a b y x); auto. 
    unfold tube_is_subset, tube_cmp. rewrite (proj2 (same_slicing_dom y x)) by auto.
    rewrite slices_cmp_nth in * by (apply length_dom; auto). intros k s1 s2 E1 E2. specialize (HS k s2 s1 E2 E1).
    unfold slice_cmp, is_superset in *. auto.
  - apply andb_true_iff in HS. destruct HS as [HS1 HS2]. rewrite forallb_forall in HS1.
    rewrite has_nth. intros k s Es. assert (List.In s x) as Hin by (eapply nth_error_In; eauto).
    specialize (HS1 _ Hin) as HS3. apply andb_true_iff in HS3. destruct HS3 as [A1 A2].
    unfold is_superset in *. apply is_subset_sub in A1, A2, HS2.
    destruct (chain_in_bounds _ _ _ _ (ok_chain _ _ _ H) Hin) as (B1 & B2 & B3).
    split; [|split].
    + apply A1. eapply eval_t_in; eauto.
    + destruct (nth_error x (S k)) as [s'|] eqn:E'.
      * assert (List.In s' x) as Hin' by (eapply nth_error_In; eauto).
        specialize (HS1 _ Hin'). apply andb_true_iff in HS1. destruct HS1 as [C1 _]. apply is_subset_sub in C1.
        pose proof (ok_shared _ _ _ H) as G. rewrite gates_shared_nth in G. rewrite (G _ _ _ Es E').
        rewrite (chain_from_nth _ _ _ _ _ _ (ok_chain _ _ _ H) Es E'). apply C1. eapply eval_t_in; eauto.
      * apply nth_error_None in E'. assert (k < length x)%nat by (apply nth_error_Some; congruence).
        assert (length x - 1 = k)%nat as Ek by lia. rewrite Ek, (sl_nth _ _ _ Es) in HS2.
        apply HS2. eapply eval_t_in; eauto.
    + intros t Ht. apply A2. eapply eval_itv_in; eauto. simpl; lra.
Qed.
Theorem subset_refl a b x : tube_ok a b x -> tube_is_subset x x = true.
Proof. intros H. rewrite (subset_same_slicing a b x x); auto. intros k s1 s2 E1 E2. rewrite E1 in E2; inversion E2; subst. auto using sub_refl. Qed.
Theorem subset_trans a b x y z : tube_ok a b x -> tube_ok a b y -> map dom x = map dom y -> map dom y = map dom z ->
  tube_is_subset x y = true -> tube_is_subset y z = true -> tube_is_subset x z = true.
Proof.
  intros H H' D1 D2 S1 S2. rewrite (subset_same_slicing a b) in * by (auto; congruence).
  intros k s1 s3 E1 E3. destruct (nth_dom x y k s1 D1 E1) as (s2 & E2 & _).
  destruct (S1 _ _ _ E1 E2) as (A1 & A2 & A3). destruct (S2 _ _ _ E2 E3) as (B1 & B2 & B3).
  split; [|split]; eapply sub_trans; eauto.
Qed.
Theorem subset_antisym a b x y : tube_ok a b x -> tube_ok a b y -> map dom x = map dom y ->
  tube_is_subset x y = true -> tube_is_subset y x = true -> x = y.
Proof.
  intros H H' D S1 S2. rewrite (subset_same_slicing a b) in * by auto. apply nth_error_ext. intros k.
  destruct (nth_error x k) as [s1|] eqn:E1.
  - destruct (nth_dom x y k s1 D E1) as (s2 & E2 & L & U). rewrite E2. f_equal.
    destruct (S1 _ _ _ E1 E2) as (A1 & A2 & A3). destruct (S2 _ _ _ E2 E1) as (B1 & B2 & B3).
    destruct (ok_in _ _ _ _ H (nth_error_In _ _ E1)) as (W1 & W2 & W3 & _).
    destruct (ok_in _ _ _ _ H' (nth_error_In _ _ E2)) as (V1 & V2 & V3 & _).
    destruct s1, s2; simpl in *. subst. f_equal; apply sub_antisym; auto.
  - symmetry. apply nth_error_None. rewrite <- (length_dom x y D). apply nth_error_None; auto.
Qed.

(** ** contains *)
Lemma bisect_contains_sound f cod tr eps : (forall i t, In t i -> In (f t) (tr i)) ->
  forall n l u r, l < u -> bisect_contains n tr cod eps l u = Some r ->
  (r = YES -> forall t, l <= t <= u -> In (f t) cod) /\
  (r = NO -> exists l' u', l <= l' /\ l' < u' /\ u' <= u /\ forall t, l' <= t <= u' -> ~ In (f t) cod).
Proof.
  intros Htr. induction n as [|n IH]; intros l u r Hlt H; simpl in H; [discriminate|].
  destruct (intersects (tr (bnd l u)) cod) eqn:E1; simpl in H.
  2:{ inversion H; subst. split; [discriminate|]. intros _. exists l, u. repeat split; try lra. intros t Ht Hc.
      rewrite intersects_false in E1. apply (E1 (f t)); auto. apply Htr, In_bnd; auto. }
  destruct (is_subset (tr (bnd l u)) cod) eqn:E2.
  { inversion H; subst. split; [|discriminate]. intros _ t Ht. apply is_subset_sub in E2. apply E2, Htr, In_bnd; auto. }
  destruct (Rltb (u - l) eps). { inversion H; subst; split; discriminate. }
  set (m := l + (u - l) / 2) in *. assert (l < m < u) as Hm by (unfold m; lra).
  destruct (bisect_contains n tr cod eps m u) as [r1|] eqn:E3; [|discriminate].
  destruct (IH m u r1 ltac:(lra) E3) as [I1 I2].
  destruct r1.
  - destruct (IH l m r ltac:(lra) H) as [J1 J2]. split.
    + intros -> t Ht. destruct (Rle_dec t m). apply J1; auto; lra. apply I1; auto; lra.
    + intros Hr. destruct (J2 Hr) as (l' & u' & H1 & H2 & H3 & H4). exists l', u'. repeat split; auto; lra.
  - inversion H; subst. split; [discriminate|]. intros Hr. destruct (I2 Hr) as (l' & u' & H1 & H2 & H3 & H4). exists l', u'. repeat split; auto; lra.
  - inversion H; subst; split; discriminate.
Qed.

Lemma slice_contains_sound f tr eps n s r : (forall i t, In t i -> In (f t) (tr i)) -> s_lb s < s_ub s ->
  slice_contains n tr eps s = Some r ->
  (r = YES -> slice_has s f) /\ (r = NO -> ~ slice_has s f).
Proof.
  intros Htr Hlt H. unfold slice_contains in H.
  destruct (intersects (tr (s_dom s)) (s_cod s)) eqn:E1; simpl in H.
  2:{ inversion H; subst. split; [discriminate|]. intros _ (F1 & F2 & F3). rewrite intersects_false in E1.
      apply (E1 (f ((s_lb s + s_ub s) / 2))). apply Htr; simpl; lra. apply F3; lra. }
  destruct (intersects (tr (pt (s_lb s))) (s_in s)) eqn:E2; simpl in H.
  2:{ inversion H; subst. split; [discriminate|]. intros _ (F1 & F2 & F3). rewrite intersects_false in E2.
      apply (E2 (f (s_lb s))); auto. apply Htr, In_pt; auto. }
  destruct (intersects (tr (pt (s_ub s))) (s_out s)) eqn:E3; simpl in H.
  2:{ inversion H; subst. split; [discriminate|]. intros _ (F1 & F2 & F3). rewrite intersects_false in E3.
      apply (E3 (f (s_ub s))); auto. apply Htr, In_pt; auto. }
  destruct (is_subset (tr (pt (s_lb s))) (s_in s)) eqn:E4; simpl in H; [|inversion H; subst; split; discriminate].
  destruct (is_subset (tr (pt (s_ub s))) (s_out s)) eqn:E5; simpl in H; [|inversion H; subst; split; discriminate].
  apply is_subset_sub in E4, E5.
  assert (In (f (s_lb s)) (s_in s)) by (apply E4, Htr, In_pt; auto).
  assert (In (f (s_ub s)) (s_out s)) by (apply E5, Htr, In_pt; auto).
  destruct (is_subset (tr (s_dom s)) (s_cod s)) eqn:E6.
  { apply is_subset_sub in E6. inversion H; subst. split; [|discriminate]. intros _. repeat split; auto.
    intros t Ht. apply E6, Htr. simpl; lra. }
  destruct (bisect_contains_sound f (s_cod s) tr eps Htr n _ _ r Hlt H) as [I1 I2]. split.
  - intros Hr. repeat split; auto. intros t Ht. apply I1; auto; lra.
  - intros Hr (F1 & F2 & F3). destruct (I2 Hr) as (l' & u' & A1 & A2 & A3 & A4).
    apply (A4 ((l' + u') / 2)); [lra|]. apply F3. lra.
Qed.

Theorem tube_contains_sound a b f tr eps n x r : (forall i t, In t i -> In (f t) (tr i)) ->
  tube_ok a b x -> tube_contains n tr eps x = Some r ->
  (r = YES -> has x f) /\ (r = NO -> ~ has x f).
Proof.
  intros Htr H. unfold tube_contains.
  assert (forall x c, (forall s, List.In s x -> s_lb s < s_ub s) -> tube_contains_loop n tr eps x c = Some r ->
     (r = YES -> c = YES /\ has x f) /\ (r = NO -> c = NO \/ ~ has x f)) as A.
  { clear x H. induction x as [|s x IH]; intros c Hl H; simpl in H.
    - inversion H; subst. split; intros ->; auto. split; auto. apply has_nil.
    - destruct (slice_contains n tr eps s) as [r1|] eqn:E; [|discriminate].
      assert (s_lb s < s_ub s) as Hs by (apply Hl; left; auto).
      destruct (slice_contains_sound f tr eps n s r1 Htr Hs E) as [S1 S2].
      assert (forall s', List.In s' x -> s_lb s' < s_ub s') as Hl' by (intros; apply Hl; right; auto).
      destruct r1.
      + destruct (IH _ Hl' H) as [I1 I2]. split.
        * intros Hr. destruct (I1 Hr). split; auto. apply has_cons; auto.
        * intros Hr. destruct (I2 Hr); auto. right. rewrite has_cons; tauto.
      + inversion H; subst. split; [discriminate|]. intros _. right. rewrite has_cons. intros [H1 H2]. apply S2; auto.
      + destruct (IH _ Hl' H) as [I1 I2]. split.
        * intros Hr. destruct (I1 Hr); discriminate.
        * intros Hr. destruct (I2 Hr); [discriminate|]. right. rewrite has_cons; tauto. }
  intros E. destruct (A x YES) as [A1 A2]; auto.
  - intros s Hs. destruct (chain_in_bounds _ _ _ _ (ok_chain _ _ _ H) Hs); lra.
  - split; intros Hr; [apply A1; auto|destruct (A2 Hr); [discriminate|auto]].
Qed.

(** the bisection ends *)
Lemma bisect_contains_ends tr cod eps : 0 < eps -> forall n l u, l <= u -> u - l < eps * 2 ^ n ->
  bisect_contains (S n) tr cod eps l u <> None.
Proof.
  intros He. induction n as [|n IH]; intros l u Hlt Hn.
  - simpl in *. destruct (negb _); [discriminate|]. destruct (is_subset _ _); [discriminate|].
    rewrite (proj2 (Rltb_true (u - l) eps)) by lra. discriminate.
  - remember (S n) as m. simpl. destruct (negb _); [discriminate|]. destruct (is_subset _ _); [discriminate|].
    destruct (Rltb (u - l) eps); [discriminate|]. subst m. simpl in Hn.
    destruct (bisect_contains (S n) tr cod eps (l + (u - l) / 2) u) as [r|] eqn:E.
    + destruct r; try discriminate. apply IH; lra.
    + exfalso. revert E. apply IH; lra.
Qed.
Theorem tube_contains_ends a b tr eps x : 0 < eps -> tube_ok a b x -> exists n, tube_contains n tr eps x <> None.
Proof.
  intros He H.
  destruct (Pow_x_infinity 2 ltac:(rewrite Rabs_pos_eq; lra) ((b - a) / eps + 1)) as [n Hn].
  specialize (Hn n (le_n n)). rewrite Rabs_pos_eq in Hn by (apply pow_le; lra).
  assert (b - a < eps * 2 ^ n) as Hb.
  { assert ((b - a) / eps < 2 ^ n) as Hd by lra. apply (Rmult_lt_compat_l eps) in Hd; auto.
    replace (eps * ((b - a) / eps)) with (b - a) in Hd by (field; lra). auto. }
  exists (S n). unfold tube_contains.
  assert (forall s, List.In s x -> slice_contains (S n) tr eps s <> None) as A.
  { intros s Hs. destruct (chain_in_bounds _ _ _ _ (ok_chain _ _ _ H) Hs) as (B1 & B2 & B3).
    unfold slice_contains. destruct (_ || _ || _); [discriminate|]. destruct (_ || _); [discriminate|].
    destruct (is_subset _ _); [discriminate|]. apply bisect_contains_ends; auto; lra. }
  clear H Hn Hb. generalize YES. induction x as [|s x IH]; intros c; [discriminate|].
  cbn [tube_contains_loop].
  destruct (slice_contains (S n) tr eps s) as [r|] eqn:E.
  2:{ exfalso. apply (A s); auto. left; auto. }
  destruct r; try discriminate; apply IH; intros; apply A; right; auto.
Qed.
