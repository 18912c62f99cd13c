(** * Properties of tubes (C01-C11, C16-C18, C56, C57)

    Vocabulary (TubeSpec.v): [tube_ok a b x] says that the slices of [x] form a partition of
    [a,b] with shared gates included in the neighbouring envelopes; [has x f] says that the
    trajectory [f] is enclosed by [x].  Each theorem is followed by an [Example] where its
    hypotheses hold for a concrete tube. *)
From Coq Require Import Reals Lra Bool List Arith Lia ZArith.
From Verif Require Import Itv Arith Tube TubeSpec TubeFacts TubeOps TubeOpsFacts TubeOpsFacts2
  TubeQueries TubeQueries2 TubeCtc Concrete.
Import ListNotations.
Open Scope R_scope.

(** ** C01 *)
Theorem C01_edits_keep_chain : forall a b l x,
  tube_ok a b x -> all_legal a b l x -> tube_ok a b (run l x).
Proof. exact run_ok. Qed.
Theorem C01_constructor_timestep : forall a b dt y,
  a < b -> 0 <= dt -> wf y -> tube_ok a b (tube_timestep a b dt y).
Proof. exact tube_timestep_ok. Qed.
Theorem C01_shift : forall a b c x, tube_ok a b x -> tube_ok (a + c) (b + c) (shift_tdomain c x).
Proof. exact shift_ok. Qed.
Theorem C01_truncate : forall a b x u v, tube_ok a b x -> a <= u -> u < v -> v <= b ->
  tube_ok u v (truncate_tdomain u v x).
Proof. exact truncate_ok. Qed.
Example C01_example : tube_ok 0 2 (run [ESample (1/3); ESetAt (I2 1 1) (1/2); ESetItv (I2 0 1) (1/4) (3/2);
   ERemoveGate 1; EEnvelope 0 (I2 0 5); EInter tB; ESetAll (I2 0 1); ECopy] tA).
Proof.
  apply C01_edits_keep_chain; [exact tA_ok|].
  cbn [all_legal legal]. repeat (match goal with |- _ /\ _ => split end); try exact tB_ok; try exact I; simpl; lra.
Qed.

(** ** C02 *)
Theorem C02_sample_same_trajectories : forall a b x t f,
  tube_ok a b x -> a <= t <= b -> (has (sample t x) f <-> has x f).
Proof. exact sample_has. Qed.
Theorem C02_sample_gates : forall a b x t, tube_ok a b x -> a <= t <= b ->
  forall u, List.In u (map s_ub (sample t x)) <-> List.In u (map s_ub x) \/ (u = t /\ a < t).
Proof. exact sample_ubs. Qed.
Theorem C02_sample_values : forall a b x u t, tube_ok a b x -> a <= u <= b ->
  eval_t (sample u x) t = eval_t x t.
Proof. exact sample_eval. Qed.
Theorem C02_sample_tube : forall a b x y, tube_ok a b x -> tube_ok a b y ->
  tube_ok a b (sample_as x y) /\
  (forall u, List.In u (map s_ub (sample_as x y)) <-> List.In u (map s_ub x) \/ List.In u (map s_ub y)) /\
  (forall f, has (sample_as x y) f <-> has x f).
Proof. exact sample_as_spec. Qed.
Example C02_example : has (sample (1/3) tA) fA /\ List.In (1/3) (map s_ub (sample (1/3) tA)) /\ has (sample_as tA tB) fA.
Proof.
  split; [|split].
  - apply (C02_sample_same_trajectories 0 2 tA (1/3) fA tA_ok ltac:(lra)), tA_fA.
  - apply (C02_sample_gates 0 2 tA (1/3) tA_ok); [lra|]. right. split; lra.
  - apply (C02_sample_tube 0 2 tA tB tA_ok tB_ok), tA_fA.
Qed.

(** ** C03 *)
Theorem C03_remove_gate : forall a b x t, tube_ok a b x ->
  tube_ok a b (remove_gate t x) /\ (forall f, has x f -> has (remove_gate t x) f).
Proof. exact remove_gate_ok. Qed.
Theorem C03_merge_similar : forall a b close x, tube_ok a b x ->
  tube_ok a b (merge_similar_slices close x) /\ (forall f, has x f -> has (merge_similar_slices close x) f).
Proof. intros a b close x H. exact (merge_loop_ok a b close (length x) 0 x H). Qed.
(** exactly one slice disappears *)
Theorem C03_merge_one : forall a b x k s1 s2, tube_ok a b x ->
  nth_error x k = Some s1 -> nth_error x (S k) = Some s2 -> length x = S (length (merge_at k x)).
Proof. intros a b x k s1 s2 H E1 E2. apply (merge_at_ok a b x k s1 s2 H E1 E2). Qed.
Example C03_example : has (remove_gate 1 tA) fA /\ has (merge_similar_slices (fun _ _ => true) tB) fA.
Proof.
  split; [apply (C03_remove_gate 0 2 tA 1 tA_ok), tA_fA|apply (C03_merge_similar 0 2 _ tB tB_ok), tB_fA].
Qed.

(** ** C04 *)
Theorem C04_eval_instant : forall a b x f t, tube_ok a b x -> has x f -> In (f t) (eval_t x t).
Proof. exact eval_t_in. Qed.
Theorem C04_eval_interval : forall a b x f i t, tube_ok a b x -> has x f -> In t i -> In (f t) (eval_itv x i).
Proof. exact eval_itv_in. Qed.
Theorem C04_codomain : forall a b x f t, tube_ok a b x -> has x f -> a <= t <= b -> In (f t) (codomain x).
Proof. exact codomain_in. Qed.
Theorem C04_outside : forall a b x t, tube_ok a b x -> (t < a \/ b < t) -> eval_t x t = ALL.
Proof. exact eval_t_out. Qed.
(** the value at an instant is the one stored in any slice whose domain contains it *)
Theorem C04_eval_exact : forall a b x k s t, tube_ok a b x -> nth_error x k = Some s -> s_lb s <= t <= s_ub s ->
  eval_t x t = if Req_EM_T t (s_lb s) then s_in s else if Req_EM_T t (s_ub s) then s_out s else s_cod s.
Proof.
  intros a b x k s t H E Ht. rewrite (eval_t_slice a b x k s t H E Ht).
  pose proof (nth_error_In _ _ E) as Hin. destruct (chain_in_bounds _ _ _ _ (ok_chain _ _ _ H) Hin) as (B1 & B2 & B3).
  destruct (Req_EM_T t (s_lb s)) as [->|]; [apply slice_eval_lb; lra|].
  destruct (Req_EM_T t (s_ub s)) as [->|]; [apply slice_eval_ub; lra|]. apply slice_eval_mid; lra.
Qed.
(** the value over an interval is the smallest one that covers the envelopes it meets *)
Theorem C04_interval_least : forall a b x u v K, tube_ok a b x -> a <= u -> u < v -> v <= b -> wf K ->
  (forall s, List.In s x -> s_lb s < v -> u < s_ub s -> sub (s_cod s) K) ->
  sub (eval_itv x (Itv (Some u) (Some v))) K.
Proof. exact eval_itv_least. Qed.
Example C04_example : In (fA (3/4)) (eval_itv tA (I2 (1/2) (3/2))) /\ In (fA 1) (eval_t tA 1) /\ eval_t tA 3 = ALL.
Proof.
  split; [|split].
  - apply (C04_eval_interval 0 2 tA fA _ _ tA_ok tA_fA). simpl; lra.
  - apply (C04_eval_instant 0 2 tA fA 1 tA_ok tA_fA).
  - apply (C04_outside 0 2 tA 3 tA_ok). lra.
Qed.

(** ** C05 *)
Theorem C05_eval_bounds : forall a b x u v t, tube_ok a b x -> a <= u -> v <= b -> u <= t <= v ->
  (forall r, lbound (eval_t x t) = Some r -> In r (fst (eval_bounds x u v))) /\
  (forall r, ubound (eval_t x t) = Some r -> In r (snd (eval_bounds x u v))).
Proof. exact eval_bounds_in. Qed.
Example C05_example : lbound (eval_t tA 1) = Some 1 /\ In 1 (fst (eval_bounds tA (1/2) (3/2))).
Proof.
  assert (lbound (eval_t tA 1) = Some 1) as E.
  { rewrite (C04_eval_exact 0 2 tA 0 _ 1 tA_ok eq_refl) by (simpl; lra). simpl.
    destruct (Req_EM_T 1 0); [lra|]. destruct (Req_EM_T 1 1); [auto|lra]. }
  split; auto. apply (C05_eval_bounds 0 2 tA (1/2) (3/2) 1 tA_ok); auto; lra.
Qed.

(** ** C06 *)
(** False as stated: with a single-instant search domain placed on a gate, the loop of
    Tube::invert does not visit any slice and the result is empty. *)
Theorem C06_invert_instant_refuted : exists a b x f y t, tube_ok a b x /\ has x f /\ a <= t <= b /\ In (f t) y /\
  ~ In t (invert x y (pt t)).
Proof.
  exists 0, 2, tA, fA, (I2 1 2), 1. split; [exact tA_ok|split; [exact tA_fA|split; [lra|split; [unfold fA; simpl; lra|]]]].
  unfold invert, pt. cbn. reval. tauto.
Qed.
(** True for any search domain with distinct bounds, ... *)
Theorem C06_invert_partial : forall a b x f y u v t, tube_ok a b x -> has x f -> u < v ->
  u <= t <= v -> In (f t) y -> In t (invert x y (Itv (Some u) (Some v))).
Proof. exact invert_in. Qed.
(** ... and for single instants that are not the lower bound of a slice. *)
Theorem C06_invert_point_partial : forall a b x f y t, tube_ok a b x -> has x f ->
  (forall s, List.In s x -> s_lb s <> t) -> In (f t) y -> In t (invert x y (pt t)).
Proof. exact invert_in_point. Qed.
(** The version that returns a list of subsets is right for all search domains. *)
Theorem C06_invert_list : forall a b x f y u v t, tube_ok a b x -> has x f ->
  u <= t <= v -> In (f t) y -> exists i, List.In i (invert_list x y (Itv (Some u) (Some v))) /\ In t i.
Proof. exact invert_list_in. Qed.
Theorem C06_invert_in_search : forall a b x y u v, tube_ok a b x -> a <= u -> u <= v -> v <= b ->
  sub (invert x y (Itv (Some u) (Some v))) (Itv (Some u) (Some v)).
Proof. exact invert_sub. Qed.
Theorem C06_invert_none : forall a b x y u v, tube_ok a b x -> a <= u -> u <= v -> v <= b ->
  (forall s w, List.In s x -> In w (s_cod s) -> ~ In w y) -> (forall s, List.In s x -> s_cod s <> Emp) ->
  invert x y (Itv (Some u) (Some v)) = Emp.
Proof. exact invert_none. Qed.
Example C06_example : In 1 (invert tA (I2 1 2) (I2 (1/2) 2)) /\ In (1/2) (invert tA (I2 1 2) (pt (1/2))) /\
  (exists i, List.In i (invert_list tA (I2 1 2) (I2 1 1)) /\ In 1 i).
Proof.
  split; [|split].
  - apply (C06_invert_partial 0 2 tA fA); try exact tA_ok; try exact tA_fA; try lra. unfold fA; simpl; lra.
  - apply (C06_invert_point_partial 0 2 tA fA); try exact tA_ok; try exact tA_fA.
    + intros s [<-|[<-|[]]]; simpl; lra.
    + unfold fA; simpl; lra.
  - apply (C06_invert_list 0 2 tA fA); try exact tA_ok; try exact tA_fA; try lra. unfold fA; simpl; lra.
Qed.

(** ** C07 *)
Theorem C07_set_instant : forall a b x y u, tube_ok a b x -> wf y -> a <= u <= b ->
  sub (eval_t (tube_set_at y u x) u) y /\
  forall t, t <> u -> eval_t (tube_set_at y u x) t = eval_t x t.
Proof. exact set_at_eval. Qed.
Theorem C07_set_instant_keeps : forall a b x y u f, tube_ok a b x -> wf y -> a <= u <= b -> has x f -> In (f u) y ->
  has (tube_set_at y u x) f.
Proof. exact set_at_has. Qed.
Theorem C07_set_interval : forall a b x y u v, tube_ok a b x -> wf y -> a <= u -> u < v -> v <= b ->
  (forall t, u < t < v -> eval_t (tube_set_itv y u v x) t = y) /\
  sub (eval_t (tube_set_itv y u v x) u) y /\ sub (eval_t (tube_set_itv y u v x) v) y /\
  (forall t, t < u \/ v < t -> eval_t (tube_set_itv y u v x) t = eval_t x t).
Proof. exact set_itv_eval. Qed.
Theorem C07_set_all : forall a b x y t, tube_ok a b x -> wf y -> a <= t <= b -> eval_t (tube_set y x) t = y.
Proof. exact set_eval. Qed.
Example C07_example : sub (eval_t (tube_set_at (I2 1 1) 1 tA) 1) (I2 1 1) /\
  eval_t (tube_set_itv (I2 5 6) (1/2) (3/2) tA) 1 = I2 5 6 /\ eval_t (tube_set (I2 5 6) tA) 2 = I2 5 6.
Proof.
  split; [|split].
  - apply (C07_set_instant 0 2 tA (I2 1 1) 1 tA_ok); simpl; lra.
  - apply (C07_set_interval 0 2 tA (I2 5 6) (1/2) (3/2) tA_ok); simpl; lra.
  - apply (C07_set_all 0 2 tA (I2 5 6) 2 tA_ok); simpl; lra.
Qed.

(** ** C08: for any inclusion-correct interval arithmetic *)
Theorem C08_add : forall A a b x y f g, arith_ok A -> tube_ok a b x -> tube_ok a b y -> has x f -> has y g ->
  has (tube_binary (iadd A) x y) (fun t => f t + g t).
Proof.
  intros A a b x y f g HA Hx Hy Hf Hg.
  apply (tube_binary_has a b (iadd A) x y f g _ (fun v1 v2 w => w = v1 + v2)); auto.
  intros v1 v2 w X1 X2 H1 H2 ->. apply iadd_in; auto.
Qed.
Theorem C08_sub : forall A a b x y f g, arith_ok A -> tube_ok a b x -> tube_ok a b y -> has x f -> has y g ->
  has (tube_binary (isub A) x y) (fun t => f t - g t).
Proof.
  intros A a b x y f g HA Hx Hy Hf Hg.
  apply (tube_binary_has a b (isub A) x y f g _ (fun v1 v2 w => w = v1 - v2)); auto.
  intros v1 v2 w X1 X2 H1 H2 ->. apply isub_in; auto.
Qed.
Theorem C08_mul : forall A a b x y f g, arith_ok A -> tube_ok a b x -> tube_ok a b y -> has x f -> has y g ->
  has (tube_binary (imul A) x y) (fun t => f t * g t).
Proof.
  intros A a b x y f g HA Hx Hy Hf Hg.
  apply (tube_binary_has a b (imul A) x y f g _ (fun v1 v2 w => w = v1 * v2)); auto.
  intros v1 v2 w X1 X2 H1 H2 ->. apply imul_in; auto.
Qed.
Theorem C08_neg : forall A a b x f, arith_ok A -> tube_ok a b x -> has x f -> has (tube_unary (ineg A) x) (fun t => - f t).
Proof.
  intros A a b x f HA Hx Hf. apply (tube_unary_has a b (ineg A) x f _ (fun v w => w = - v)); auto.
  intros v w X Hv ->. apply ineg_in; auto.
Qed.
(** any unary / binary operation, given as a relation between values (so partial functions such
    as sqrt or a division are covered: the relation only constrains what is defined) *)
Theorem C08_unary : forall a b F x f g (Rop : R -> R -> Prop),
  (forall v w X, In v X -> Rop v w -> In w (F X)) ->
  tube_ok a b x -> has x f -> (forall t, a <= t <= b -> Rop (f t) (g t)) -> has (tube_unary F x) g.
Proof. exact tube_unary_has. Qed.
Theorem C08_binary : forall a b F x1 x2 f1 f2 g (Rop : R -> R -> R -> Prop),
  (forall v1 v2 w X1 X2, In v1 X1 -> In v2 X2 -> Rop v1 v2 w -> In w (F X1 X2)) ->
  tube_ok a b x1 -> tube_ok a b x2 ->
  has x1 f1 -> has x2 f2 -> (forall t, a <= t <= b -> Rop (f1 t) (f2 t) (g t)) ->
  has (tube_binary F x1 x2) g.
Proof. exact tube_binary_has. Qed.
(** the assignment operators (+=, ...) with a tube *)
Theorem C08_assign : forall a b F x1 x2 f1 f2 g (Rop : R -> R -> R -> Prop),
  (forall v1 v2 w X1 X2, In v1 X1 -> In v2 X2 -> Rop v1 v2 w -> In w (F X1 X2)) ->
  tube_ok a b x1 -> tube_ok a b x2 ->
  has x1 f1 -> has x2 f2 -> (forall t, a <= t <= b -> Rop (f1 t) (f2 t) (g t)) ->
  has (tube_assign F x1 x2) g.
Proof. exact tube_assign_has. Qed.
(** results are well formed when the interval operation is isotone *)
Theorem C08_binary_ok : forall a b F x1 x2, mono2 F -> tube_ok a b x1 -> tube_ok a b x2 -> tube_ok a b (tube_binary F x1 x2).
Proof. exact tube_binary_ok. Qed.
Theorem C08_unary_ok : forall a b F x, mono1 F -> tube_ok a b x -> tube_ok a b (tube_unary F x).
Proof. exact tube_unary_ok. Qed.
Example C08_example : has (tube_binary (iadd exact) tA tB) (fun t => fA t + fA t) /\
  has (tube_binary (imul exact) tA tB) (fun t => fA t * fA t) /\ has (tube_unary (ineg exact) tA) (fun t => - fA t).
Proof.
  split; [|split].
  - apply (C08_add exact 0 2); auto using exact_ok, tA_ok, tB_ok, tA_fA, tB_fA.
  - apply (C08_mul exact 0 2); auto using exact_ok, tA_ok, tB_ok, tA_fA, tB_fA.
  - apply (C08_neg exact 0 2); auto using exact_ok, tA_ok, tA_fA.
Qed.

(** ** C09 *)
Theorem C09_inter : forall a b x1 x2 f, tube_ok a b x1 -> tube_ok a b x2 ->
  (has (tube_binary inter x1 x2) f <-> has x1 f /\ has x2 f).
Proof. exact tube_inter_has. Qed.
Theorem C09_union_l : forall a b x1 x2 f, tube_ok a b x1 -> tube_ok a b x2 -> has x1 f -> has (tube_binary hull x1 x2) f.
Proof. exact tube_hull_has_l. Qed.
Theorem C09_union_r : forall a b x1 x2 f, tube_ok a b x1 -> tube_ok a b x2 -> has x2 f -> has (tube_binary hull x1 x2) f.
Proof. exact tube_hull_has_r. Qed.
Theorem C09_inter_assign : forall a b x1 x2 f, tube_ok a b x1 -> tube_ok a b x2 ->
  (has x1 f -> has x2 f -> has (tube_assign inter x1 x2) f) /\ (has (tube_assign inter x1 x2) f -> has x1 f).
Proof. exact tube_assign_inter. Qed.
Theorem C09_union_assign : forall a b x1 x2 f, tube_ok a b x1 -> tube_ok a b x2 ->
  (has x1 f \/ has x2 f) -> has (tube_assign hull x1 x2) f.
Proof. exact tube_assign_hull. Qed.
Example C09_example : has (tube_binary inter tA tB) fA /\ has (tube_binary hull tA tB) fA /\ has (tube_assign inter tA tB) fA.
Proof.
  split; [|split].
  - apply (C09_inter 0 2 tA tB fA tA_ok tB_ok). split; [exact tA_fA|exact tB_fA].
  - apply (C09_union_l 0 2 tA tB fA tA_ok tB_ok), tA_fA.
  - apply (C09_inter_assign 0 2 tA tB fA tA_ok tB_ok); [exact tA_fA|exact tB_fA].
Qed.

(** ** C10 *)
Theorem C10_contains : forall a b f tr eps n x r, (forall i t, In t i -> In (f t) (tr i)) ->
  tube_ok a b x -> tube_contains n tr eps x = Some r ->
  (r = YES -> has x f) /\ (r = NO -> ~ has x f).
Proof. exact tube_contains_sound. Qed.
Theorem C10_contains_terminates : forall a b tr eps x, 0 < eps -> tube_ok a b x ->
  exists n, tube_contains n tr eps x <> None.
Proof. exact tube_contains_ends. Qed.
Example C10_example : (forall i t, In t i -> In (3/2) ((fun _ => pt (3/2)) i)) /\
  tube_contains 1 (fun _ => pt (3/2)) (1/10) tA = Some NO /\
  tube_contains 1 (fun _ => pt (3/2)) (1/10) (tube_one 0 2 (I2 1 2)) = Some YES.
Proof.
  split; [intros; apply In_pt; auto|].
  split; unfold tube_contains; cbn; unfold slice_contains, intersects; cbn; reval; auto.
Qed.

(** ** C11 *)
Theorem C11_equality : forall x y, tube_eqb x y = true <-> x = y.
Proof. exact tube_eqb_true. Qed.
Theorem C11_difference : forall x y, tube_neqb x y = negb (tube_eqb x y).
Proof. exact tube_neqb_eqb. Qed.
Theorem C11_subset : forall a b x y, tube_ok a b x -> map dom x = map dom y ->
  (tube_is_subset x y = true <->
   forall k s1 s2, nth_error x k = Some s1 -> nth_error y k = Some s2 ->
     sub (s_cod s1) (s_cod s2) /\ sub (s_in s1) (s_in s2) /\ sub (s_out s1) (s_out s2)).
Proof. exact subset_same_slicing. Qed.
Theorem C11_subset_trajectories : forall a b x y f, tube_ok a b x -> map dom x = map dom y ->
  tube_is_subset x y = true -> has x f -> has y f.
Proof. exact subset_has. Qed.
Theorem C11_superset_trajectories : forall a b x y f, tube_ok a b x -> tube_ok a b y ->
  tube_is_superset x y = true -> has y f -> has x f.
Proof. exact superset_has. Qed.
Theorem C11_refl : forall a b x, tube_ok a b x -> tube_is_subset x x = true.
Proof. exact subset_refl. Qed.
Theorem C11_trans : forall a b x y z, tube_ok a b x -> tube_ok a b y -> map dom x = map dom y -> map dom y = map dom z ->
  tube_is_subset x y = true -> tube_is_subset y z = true -> tube_is_subset x z = true.
Proof. exact subset_trans. Qed.
Theorem C11_antisym : forall a b x y, tube_ok a b x -> tube_ok a b y -> map dom x = map dom y ->
  tube_is_subset x y = true -> tube_is_subset y x = true -> tube_eqb x y = true.
Proof. intros a b x y H1 H2 D S1 S2. apply tube_eqb_true. exact (subset_antisym a b x y H1 H2 D S1 S2). Qed.
(** With different slicings, is_subset may answer true although a trajectory of this is not
    in x (the envelope of x is evaluated over the whole slice of this). *)
Theorem C11_subset_other_slicing_refuted : exists a b x y f, tube_ok a b x /\ tube_ok a b y /\
  tube_is_subset x y = true /\ has x f /\ ~ has y f.
Proof.
  set (x := tube_one 0 3 (I2 0 10)).
  set (y := [mkS 0 1 (I2 0 10) (I2 0 10) (I2 0 1); mkS 1 2 (I2 0 1) (I2 0 1) (I2 0 1); mkS 2 3 (I2 0 10) (I2 0 1) (I2 0 10)]).
  exists 0, 3, x, y, (fun _ => 5).
  split; [tube_ok_tac|split; [tube_ok_tac|split; [|split]]].
  - unfold tube_is_subset, tube_cmp, x, y, same_slicing, tube_one, slice_new, s_dom, itv_eqb, is_subset, eval_itv, eval_t, slice_at, slice_eval, is_subset, sl, hull. cbn. unfold slice_at, slice_eval. cbn. reval.
    unfold slice_eval; cbn; reval. auto.
  - unfold x, tube_one. has_tac.
  - intros H. specialize (H (mkS 1 2 (I2 0 1) (I2 0 1) (I2 0 1))). destruct H as (H & _); [right; left; auto|]. simpl in H. lra.
Qed.
Example C11_example : map dom tA = map dom (tube_set (I2 0 9) tA) /\ tube_is_subset tA (tube_set (I2 0 9) tA) = true /\
  tube_is_superset (tube_set (I2 (-9) 9) tB) tA = true.
Proof.
  assert (wf (I2 0 9)) by (simpl; lra). assert (wf (I2 (-9) 9)) by (simpl; lra).
  split; [|split].
  - rewrite tube_set_eq by auto. auto.
  - apply (C11_subset 0 2 tA); [exact tA_ok|rewrite tube_set_eq by auto; auto|].
    rewrite tube_set_eq by auto. intros [|[|k]] s1 s2 E1 E2; simpl in *; inversion E1; inversion E2; subst; simpl; [| |destruct k; discriminate];
      unfold sub; simpl; repeat split; lra.
  - rewrite tube_set_eq by auto. unfold tube_is_superset, tube_cmp, is_superset, tA, tB. cbn. reval.
    unfold eval_t, slice_at, slice_eval, is_subset. cbn. reval. unfold slice_eval; cbn; reval. auto.
Qed.

(** ** C16 *)
(** False as stated: a bound inside a slice becomes a gate with the value of the former gate. *)
Theorem C16_truncate_refuted : exists a b x u v f, tube_ok a b x /\ a <= u /\ u < v /\ v <= b /\ has x f /\
  ~ has (truncate_tdomain u v x) f.
Proof.
  exists 0, 2, [mkS 0 2 (I2 0 2) (I2 0 0) (I2 2 2)], 1, 2, (fun t => t).
  split; [tube_ok_tac|split; [lra|split; [lra|split; [lra|split; [has_tac|]]]]].
  unfold truncate_tdomain. cbn. unfold is_outside_of, clip_dom, contains, set_dom. cbn. reval. unfold is_outside_of, clip_dom, contains, set_dom. cbn. reval.
  unfold is_outside_of, clip_dom, contains, set_dom. cbn. reval. unfold clip_dom, set_dom; cbn; reval.
  intros H. destruct (H _ (or_introl eq_refl)) as (H1 & _). simpl in H1. lra.
Qed.
(** True when the new bounds are existing gates, ... *)
Theorem C16_truncate_gates_partial : forall a b x u v f, tube_ok a b x -> a <= u -> u < v -> v <= b ->
  (u = a \/ List.In u (map s_ub x)) -> (v = b \/ List.In v (map s_lb x)) ->
  has x f -> has (truncate_tdomain u v x) f.
Proof. exact truncate_gates_has. Qed.
(** ... and otherwise for the trajectories that go through the two end gates. *)
Theorem C16_truncate_ends_partial : forall a b x u v f, tube_ok a b x -> a <= u -> u < v -> v <= b -> has x f ->
  In (f u) (eval_t (truncate_tdomain u v x) u) -> In (f v) (eval_t (truncate_tdomain u v x) v) ->
  has (truncate_tdomain u v x) f.
Proof. exact truncate_has. Qed.
Theorem C16_truncate_domain : forall a b x u v, tube_ok a b x -> a <= u -> u < v -> v <= b ->
  tube_ok u v (truncate_tdomain u v x).
Proof. exact truncate_ok. Qed.
Example C16_example : has (truncate_tdomain (1/2) (3/2) tB) fA.
Proof.
  apply (C16_truncate_gates_partial 0 2 tB); try exact tB_ok; try exact tB_fA; try lra; right; simpl; lra.
Qed.

(** ** C17 *)
Theorem C17_shift : forall c x f, has (shift_tdomain c x) (fun t => f (t - c)) <-> has x f.
Proof. exact shift_has. Qed.
Theorem C17_shift_back : forall c x, shift_tdomain (- c) (shift_tdomain c x) = x.
Proof. exact shift_shift. Qed.
Example C17_example : has (shift_tdomain 3 tA) (fun t => fA (t - 3)) /\ tube_ok (0 + 3) (2 + 3) (shift_tdomain 3 tA).
Proof. split; [apply C17_shift, tA_fA|apply C01_shift, tA_ok]. Qed.

(** ** C18 *)
Theorem C18_inflate : forall A a b x r f d, arith_ok A -> tube_ok a b x -> 0 <= r ->
  has x f -> (forall t, a <= t <= b -> Rabs (d t) <= r) -> has (inflate A r x) (fun t => f t + d t).
Proof. exact inflate_has. Qed.
Example C18_example : has (inflate exact 1 tA) (fun t => fA t + 1).
Proof.
  apply (C18_inflate exact 0 2 tA 1 fA (fun _ => 1) exact_ok tA_ok ltac:(lra) tA_fA).
  intros t _. rewrite Rabs_pos_eq; lra.
Qed.

(** ** C56: Tube(lb, ub) *)
Theorem C56_between : forall a b dt lb ub l u f, a < b -> 0 <= dt ->
  (forall i t, In t i -> In (l t) (lb i)) -> (forall i t, In t i -> In (u t) (ub i)) ->
  (forall t, a <= t <= b -> l t <= f t <= u t) -> has (tube_between a b dt lb ub) f.
Proof. exact tube_between_has. Qed.
Example C56_example : has (tube_between 0 2 (1/2) (fun i => i) (fun i => iadd exact i (pt 1))) fA.
Proof.
  apply (C56_between 0 2 (1/2) _ _ (fun t => t) (fun t => t + 1)); try lra; auto.
  - intros i t Hi. apply (iadd_in _ exact_ok); auto. apply In_pt; auto.
  - intros t Ht. unfold fA; lra.
Qed.

(** ** C57: Tube(v_tdomains, v_codomains) *)
Theorem C57_vectors : forall a l b, increasing a l b ->
  tube_ok a b (tube_vectors a l) /\ map s_ub (tube_vectors a l) = map fst l /\
  forall f, has (tube_vectors a l) f <-> in_each a l f.
Proof. exact tube_vectors_spec. Qed.
Example C57_example : has (tube_vectors 0 [(1, I2 0 2); (3/2, I2 1 3); (2, I2 0 9)]) fA.
Proof.
  apply (C57_vectors 0 [(1, I2 0 2); (3/2, I2 1 3); (2, I2 0 9)] 2); unfold fA; simpl; repeat split; intros; lra.
Qed.

Print Assumptions C01_edits_keep_chain.
Print Assumptions C02_sample_same_trajectories.
Print Assumptions C03_remove_gate.
Print Assumptions C04_eval_interval.
Print Assumptions C05_eval_bounds.
Print Assumptions C06_invert_instant_refuted.
Print Assumptions C06_invert_list.
Print Assumptions C07_set_interval.
Print Assumptions C08_binary.
Print Assumptions C09_inter.
Print Assumptions C10_contains_terminates.
Print Assumptions C11_antisym.
Print Assumptions C16_truncate_gates_partial.
Print Assumptions C17_shift.
Print Assumptions C18_inflate.
Print Assumptions C56_between.
Print Assumptions C57_vectors.
