(** * C107: the operators of vectors of tubes act componentwise; operands taken in the vector itself
    C108: the operators of a slice and the gates it shares *)

From Coq Require Import Reals Lra Lia Bool List Arith.
Import ListNotations.
From Verif Require Import Itv Arith Tube TubeOps TubeSpec TubeFacts TubeOpsFacts TubeOpsFacts2 TubeCtc TubePaving Concrete Trajectory TrajFacts PropsTube PropsTraj PropsTrajArith PropsTubePaving
  PicardFacts TubeVecOps.
Open Scope R_scope.

(** Component [i] of [v] holds the trajectory [f i] *)
Definition vhas (v : list tube) (f : nat -> R -> R) : Prop := forall i x, nth_error v i = Some x -> has x (f i).
(** A vector of tubes on [a,b] *)
Definition vec_ok (a b : R) (v : list tube) : Prop := v <> [] /\ Forall (tube_ok a b) v.
(** [F] encloses the operation described by the relation [op] *)
Definition encloses (F : itv -> itv -> itv) (op : R -> R -> R -> Prop) : Prop :=
  forall u v w X Y, In u X -> In v Y -> op u v w -> In w (F X Y).
(** An enclosure [tr] of the trajectory [h] *)
Definition tr_of (tr : itv -> itv) (h : R -> R) : Prop := forall i t, In t i -> In (h t) (tr i).

Lemma zipw_nth {A B C} (f : A -> B -> C) : forall l1 l2 l, zipw f l1 l2 = Some l -> length l = length l1 /\
  forall i z, nth_error l i = Some z -> exists x y, nth_error l1 i = Some x /\ nth_error l2 i = Some y /\ z = f x y.
Proof.
  induction l1 as [|x r IH]; intros [|y r2] l H; cbn in H; try discriminate.
  - injection H as <-. split; auto. intros [|i] z E; discriminate.
  - destruct (zipw f r r2) as [l'|] eqn:E; [|discriminate]. injection H as <-. destruct (IH _ _ E) as [L K].
    split; [cbn; congruence|]. intros [|i] z Ez; cbn in Ez; [injection Ez as <-; exists x, y; auto|]. apply K in Ez. exact Ez.
Qed.
Lemma zipw_some {A B C} (f : A -> B -> C) : forall l1 l2, length l1 = length l2 -> exists l, zipw f l1 l2 = Some l.
Proof.
  induction l1 as [|x r IH]; intros [|y r2] H; try discriminate; cbn; [eauto|]. destruct (IH r2) as [l ->]; [cbn in H; lia|eauto].
Qed.
Lemma vec_tdomain_ok a b v : vec_ok a b v -> vec_tdomain v = Some (bnd a b).
Proof.
  intros [N F]. destruct v as [|x r]; [congruence|]. inversion F as [|? ? Hx Hr]; subst. cbn. rewrite (tdomain_ok a b x Hx).
  replace (forallb _ r) with true; auto. symmetry. apply forallb_forall. intros y Hy. rewrite Forall_forall in Hr.
  rewrite (tdomain_ok a b y) by auto. apply itv_eqb_refl.
Qed.
Lemma same_tdom_refl i : same_tdom (Some i) (Some i) = true.
Proof. apply itv_eqb_refl. Qed.
Lemma vec_nth a b v i x : vec_ok a b v -> nth_error v i = Some x -> tube_ok a b x.
Proof. intros [_ F] E. rewrite Forall_forall in F. apply F. eapply nth_error_In; eauto. Qed.

(** ** Two vectors *)
Theorem C107_vectors : forall a b F op x1 x2 f g h, encloses F op -> vec_ok a b x1 -> vec_ok a b x2 -> length x1 = length x2 ->
  vhas x1 f -> vhas x2 g -> (forall i t, a <= t <= b -> op (f i t) (g i t) (h i t)) ->
  exists y, vec_op F x1 x2 = Some y /\ length y = length x1 /\ vhas y h.
Proof.
  intros a b F op x1 x2 f g h HF O1 O2 L H1 H2 Hr. unfold vec_op. rewrite (vec_tdomain_ok a b x1), (vec_tdomain_ok a b x2), same_tdom_refl by auto.
  destruct (zipw_some (tube_binary F) x1 x2 L) as [y E]. exists y. rewrite E. destruct (zipw_nth _ _ _ _ E) as [Ly K]. split; auto. split; auto.
  intros i z Ez. destruct (K _ _ Ez) as (u & v & Eu & Ev & ->). apply (tube_binary_has a b F u v (f i) (g i) (h i) op); eauto using vec_nth.
Qed.
Theorem C107_assign : forall a b F op x1 x2 f g h, encloses F op -> vec_ok a b x1 -> vec_ok a b x2 -> length x1 = length x2 ->
  vhas x1 f -> vhas x2 g -> (forall i t, a <= t <= b -> op (f i t) (g i t) (h i t)) ->
  exists y, vec_assign F x1 x2 = Some y /\ length y = length x1 /\ vhas y h.
Proof.
  intros a b F op x1 x2 f g h HF O1 O2 L H1 H2 Hr. unfold vec_assign. rewrite (vec_tdomain_ok a b x1), (vec_tdomain_ok a b x2), same_tdom_refl by auto.
  destruct (zipw_some (tube_assign F) x1 x2 L) as [y E]. exists y. rewrite E. destruct (zipw_nth _ _ _ _ E) as [Ly K]. split; auto. split; auto.
  intros i z Ez. destruct (K _ _ Ez) as (u & v & Eu & Ev & ->). apply (tube_assign_has a b F u v (f i) (g i) (h i) op); eauto using vec_nth.
Qed.
(** intersection: exactly the trajectories of both; union: at least those of each *)
Theorem C107_inter : forall a b x1 x2 y f, vec_ok a b x1 -> vec_ok a b x2 -> vec_op inter x1 x2 = Some y ->
  (vhas y f <-> vhas x1 f /\ vhas x2 f).
Proof.
  intros a b x1 x2 y f O1 O2 E. unfold vec_op in E. rewrite (vec_tdomain_ok a b x1), (vec_tdomain_ok a b x2), same_tdom_refl in E by auto.
  destruct (zipw_nth _ _ _ _ E) as [Ly K].
  assert (L2 : length x1 = length x2).
  { clear - E. revert x2 y E. induction x1 as [|u r IH]; intros [|v s] y E; cbn in E; try discriminate; auto.
    destruct (zipw _ r s) eqn:E'; [|discriminate]. cbn. f_equal. eauto. }
  assert (K' : forall i u v, nth_error x1 i = Some u -> nth_error x2 i = Some v -> nth_error y i = Some (tube_binary inter u v)).
  { intros i u v Eu Ev. destruct (nth_error y i) as [z|] eqn:Ez.
    - destruct (K _ _ Ez) as (u' & v' & Eu' & Ev' & ->). congruence.
    - exfalso. apply nth_error_None in Ez. assert (i < length x1)%nat by (apply nth_error_Some; congruence). lia. }
  split.
  - intros H. split; intros i x Ex.
    + destruct (nth_error x2 i) as [v|] eqn:Ev.
      * apply (tube_inter_has a b x v (f i)); eauto using vec_nth.
      * exfalso. apply nth_error_None in Ev. assert (i < length x1)%nat by (apply nth_error_Some; congruence). lia.
    + destruct (nth_error x1 i) as [v|] eqn:Ev.
      * apply (tube_inter_has a b v x (f i)); eauto using vec_nth.
      * exfalso. apply nth_error_None in Ev. assert (i < length x2)%nat by (apply nth_error_Some; congruence). lia.
  - intros [H1 H2] i z Ez. destruct (K _ _ Ez) as (u & v & Eu & Ev & ->). apply (tube_inter_has a b u v (f i)); eauto using vec_nth.
Qed.
Theorem C107_union : forall a b x1 x2 y f, vec_ok a b x1 -> vec_ok a b x2 -> vec_op hull x1 x2 = Some y -> vhas x1 f \/ vhas x2 f -> vhas y f.
Proof.
  intros a b x1 x2 y f O1 O2 E H. unfold vec_op in E. rewrite (vec_tdomain_ok a b x1), (vec_tdomain_ok a b x2), same_tdom_refl in E by auto.
  destruct (zipw_nth _ _ _ _ E) as [Ly K]. intros i z Ez. destruct (K _ _ Ez) as (u & v & Eu & Ev & ->).
  destruct H as [H|H]; [apply (tube_hull_has_l a b)|apply (tube_hull_has_r a b)]; eauto using vec_nth.
Qed.

(** ** A vector and a box or a vector of trajectories *)
Theorem C107_box : forall a b F op x1 (x2 : list itv) f p h, encloses F op -> vec_ok a b x1 -> length x1 = length x2 ->
  vhas x1 f -> (forall i c, nth_error x2 i = Some c -> In (p i) c) ->
  ((forall i t, a <= t <= b -> op (f i t) (p i) (h i t)) ->
    (exists y, vec_op_box F x1 x2 = Some y /\ length y = length x1 /\ vhas y h) /\
    (exists y, vec_assign_box F x1 x2 = Some y /\ length y = length x1 /\ vhas y h)) /\
  ((forall i t, a <= t <= b -> op (p i) (f i t) (h i t)) -> exists y, box_op_vec F x2 x1 = Some y /\ length y = length x1 /\ vhas y h).
Proof.
  intros a b F op x1 x2 f p h HF O1 L H1 Hp. split; [intros Hr; split|intros Hr].
  - unfold vec_op_box. destruct (zipw_some (fun x i => tube_unary (fun c => F c i) x) x1 x2 L) as [y E]. exists y. rewrite E.
    destruct (zipw_nth _ _ _ _ E) as [Ly K]. split; auto. split; auto. intros i z Ez. destruct (K _ _ Ez) as (u & v & Eu & Ev & ->).
    apply (tube_unary_has a b (fun c => F c v) u (f i) (h i) (fun s w => op s (p i) w)); eauto using vec_nth.
  - unfold vec_assign_box. destruct (zipw_some (tube_assign_itv F) x1 x2 L) as [y E]. exists y. rewrite E.
    destruct (zipw_nth _ _ _ _ E) as [Ly K]. split; auto. split; auto. intros i z Ez. destruct (K _ _ Ez) as (u & v & Eu & Ev & ->).
    apply (tube_unary_has a b (fun c => F c v) u (f i) (h i) (fun s w => op s (p i) w)); eauto using vec_nth.
  - unfold box_op_vec. destruct (zipw_some (fun i x => tube_unary (fun c => F i c) x) x2 x1 (eq_sym L)) as [y E]. exists y. rewrite E.
    destruct (zipw_nth _ _ _ _ E) as [Ly K]. split; auto. split; [congruence|]. intros i z Ez. destruct (K _ _ Ez) as (u & v & Eu & Ev & ->).
    apply (tube_unary_has a b (fun c => F u c) v (f i) (h i) (fun s w => op (p i) s w)); eauto using vec_nth.
Qed.
Theorem C107_traj : forall a b F op x1 trs f g h, encloses F op -> vec_ok a b x1 -> length x1 = length trs ->
  vhas x1 f -> (forall i tr, nth_error trs i = Some tr -> tr_of tr (g i)) -> (forall i t, a <= t <= b -> op (f i t) (g i t) (h i t)) ->
  (exists y, vec_op_traj F x1 trs = Some y /\ length y = length x1 /\ vhas y h) /\
  (exists y, vec_assign_trajs F x1 trs = Some y /\ length y = length x1 /\ vhas y h) /\
  (exists y, traj_op_vec F trs x1 = Some y /\ length y = length x1 /\ vhas y h).
Proof.
  intros a b F op x1 trs f g h HF O1 L H1 Hg Hr. split; [|split].
  1,2: unfold vec_op_traj, vec_assign_trajs; destruct (zipw_some (tube_assign_traj F) x1 trs L) as [y E]; exists y; rewrite E;
    destruct (zipw_nth _ _ _ _ E) as [Ly K]; split; auto; split; auto; intros i z Ez; destruct (K _ _ Ez) as (u & v & Eu & Ev & ->);
    apply (tube_assign_traj_has a b F u v (f i) (h i) (g i) op); eauto using vec_nth; exact (Hg _ _ Ev).
  unfold traj_op_vec. destruct (zipw_some (fun tr x => tube_assign_traj F x tr) trs x1 (eq_sym L)) as [y E]. exists y. rewrite E.
  destruct (zipw_nth _ _ _ _ E) as [Ly K]. split; auto. split; [congruence|]. intros i z Ez. destruct (K _ _ Ez) as (v & u & Ev & Eu & ->).
  apply (tube_assign_traj_has a b F u v (f i) (h i) (g i) op); eauto using vec_nth. exact (Hg _ _ Ev).
Qed.

(** ** The operations of the file that are not symmetric in their operands *)
Lemma map_vhas (G : tube -> tube) v f : (forall i x, nth_error v i = Some x -> has (G x) (f i)) -> vhas (map G v) f.
Proof.
  intros H i z Ez. rewrite nth_error_map in Ez. destruct (nth_error v i) eqn:E; [|discriminate]. injection Ez as <-. auto.
Qed.
Lemma tube_mono1_neg A : arith_ok A -> forall v w X, In v X -> w = - v -> In w (ineg A X).
Proof. intros HA v w X H ->. apply ineg_in; auto. Qed.

Theorem C107_neg : forall A a b v f, arith_ok A -> vec_ok a b v -> vhas v f -> vhas (vec_neg A v) (fun i t => - f i t).
Proof.
  intros A a b v f HA O H. apply map_vhas. intros i x E.
  apply (tube_unary_has a b (ineg A) x (f i) _ (fun s w => w = - s)); eauto using vec_nth, tube_mono1_neg.
Qed.
(** trajectory minus tube; the enclosure of the opposite of a tube is well formed (mono1) *)
Theorem C107_traj_sub : forall A a b trs v f g, arith_ok A -> mono1 (ineg A) -> vec_ok a b v -> length v = length trs -> vhas v f ->
  (forall i tr, nth_error trs i = Some tr -> tr_of tr (g i)) ->
  exists y, traj_sub_vec A trs v = Some y /\ length y = length v /\ vhas y (fun i t => g i t - f i t).
Proof.
  intros A a b trs v f g HA HM O L H Hg. unfold traj_sub_vec.
  destruct (zipw_some (fun tr x => tube_assign_traj (iadd A) (tube_unary (ineg A) x) tr) trs v (eq_sym L)) as [y E]. exists y. rewrite E.
  destruct (zipw_nth _ _ _ _ E) as [Ly K]. split; auto. split; [congruence|]. intros i z Ez. destruct (K _ _ Ez) as (tr & x & Et & Ex & ->).
  apply (tube_assign_traj_has a b (iadd A) (tube_unary (ineg A) x) tr (fun t => - f i t) _ (g i) (fun s u w => w = s + u)).
  - intros v1 v2 w X1 X2 I1 I2 ->. apply iadd_in; auto.
  - exact (Hg _ _ Et).
  - apply tube_unary_ok; eauto using vec_nth.
  - apply (tube_unary_has a b (ineg A) x (f i) _ (fun s w => w = - s)); eauto using vec_nth, tube_mono1_neg.
  - intros t Ht. lra.
Qed.
Theorem C107_products : forall A a b v x (i0 : itv) (box : list itv) tr c p f g h, arith_ok A -> vec_ok a b v -> tube_ok a b x ->
  vhas v f -> has x g -> In c i0 -> (forall i j, nth_error box i = Some j -> In (p i) j) -> tr_of tr h ->
  vhas (itv_mul_vec A i0 v) (fun i t => c * f i t) /\
  vhas (tube_mul_box A x box) (fun i t => g t * p i) /\
  (exists y, tube_mul_vec A x v = Some y /\ length y = length v /\ vhas y (fun i t => g t * f i t)) /\
  vhas (traj_mul_vec A tr v) (fun i t => h t * f i t).
Proof.
  intros A a b v x i0 box tr c p f g h HA O Ox H Hg Hc Hp Htr. split; [|split; [|split]].
  - apply map_vhas. intros i y E. apply (tube_unary_has a b (fun z => imul A i0 z) y (f i) _ (fun s w => w = c * s)); eauto using vec_nth.
    intros s w X Hs ->. apply imul_in; auto.
  - intros i z Ez. unfold tube_mul_box in Ez. rewrite nth_error_map in Ez. destruct (nth_error box i) as [j|] eqn:E; [|discriminate]. injection Ez as <-.
    apply (tube_unary_has a b (fun z => imul A z j) x g _ (fun s w => w = s * p i)); auto. intros s w X Hs ->. apply imul_in; auto.
  - unfold tube_mul_vec. rewrite (tdomain_ok a b x Ox), (vec_tdomain_ok a b v O), same_tdom_refl. eexists. split; [reflexivity|].
    split; [apply map_length|]. apply map_vhas. intros i y E.
    apply (tube_binary_has a b (imul A) x y g (f i) _ (fun s u w => w = s * u)); eauto using vec_nth. intros v1 v2 w X Y I1 I2 ->. apply imul_in; auto.
  - apply map_vhas. intros i y E. apply (tube_assign_traj_has a b (imul A) y tr (f i) _ h (fun s u w => w = u * s)); eauto using vec_nth.
    intros v1 v2 w X Y I1 I2 ->. rewrite Rmult_comm. apply imul_in; auto.
Qed.
(** quotients, where the divisor does not vanish; [D] encloses the quotients *)
Theorem C107_quotients : forall D a b v x (i0 : itv) (box : list itv) tr c p f g h,
  (forall s u X Y, In s X -> In u Y -> u <> 0 -> In (s / u) (D X Y)) -> vec_ok a b v -> tube_ok a b x ->
  vhas v f -> has x g -> In c i0 -> c <> 0 -> Forall wf box -> (forall i j, nth_error box i = Some j -> In (p i) j) -> tr_of tr h ->
  (forall t, a <= t <= b -> g t <> 0) -> (forall t, a <= t <= b -> h t <> 0) ->
  vhas (vec_div_itv D v i0) (fun i t => f i t / c) /\
  vhas (box_div_tube D box x) (fun i t => p i / g t) /\
  (exists y, vec_div_tube D v x = Some y /\ length y = length v /\ vhas y (fun i t => f i t / g t)) /\
  vhas (vec_div_traj D v tr) (fun i t => f i t / h t).
Proof.
  intros D a b v x i0 box tr c p f g h HD O Ox H Hg Hc Nc Wb Hp Htr Ng Nh. split; [|split; [|split]].
  - apply map_vhas. intros i y E. apply (tube_unary_has a b (fun z => D z i0) y (f i) _ (fun s w => w = s / c)); eauto using vec_nth.
    intros s w X Hs ->. apply HD; auto.
  - intros i z Ez. unfold box_div_tube in Ez. rewrite nth_error_map in Ez. destruct (nth_error box i) as [j|] eqn:E; [|discriminate]. injection Ez as <-.
    assert (Wj : wf j) by (rewrite Forall_forall in Wb; apply Wb; eapply nth_error_In; eauto).
    apply (tube_binary_has a b D (tube_set j x) x (fun _ => p i) g _ (fun s u w => u <> 0 /\ w = s / u)); auto.
    + intros v1 v2 w X Y I1 I2 [N ->]. apply HD; auto.
    + apply tube_set_ok; auto.
    + rewrite tube_set_eq by exact Wj. intros s Hs. apply in_map_iff in Hs. destruct Hs as (s0 & <- & Hs). pose proof (Hp _ _ E) as Hj.
      split; [|split]; cbn; auto.
  - unfold vec_div_tube. rewrite (tdomain_ok a b x Ox), (vec_tdomain_ok a b v O), same_tdom_refl. eexists. split; [reflexivity|].
    split; [apply map_length|]. apply map_vhas. intros i y E.
    apply (tube_binary_has a b D y x (f i) g _ (fun s u w => u <> 0 /\ w = s / u)); eauto using vec_nth. intros v1 v2 w X Y I1 I2 [N ->]. apply HD; auto.
  - apply map_vhas. intros i y E. apply (tube_assign_traj_has a b D y tr (f i) _ h (fun s u w => u <> 0 /\ w = s / u)); eauto using vec_nth.
    intros v1 v2 w X Y I1 I2 [N ->]. apply HD; auto.
Qed.
Theorem C107_abs : forall F a b v f, (forall s X, In s X -> In (Rabs s) (F X)) -> vec_ok a b v -> vhas v f -> vhas (vec_abs F v) (fun i t => Rabs (f i t)).
Proof.
  intros F a b v f HF O H. apply map_vhas. intros i x E. apply (tube_unary_has a b F x (f i) _ (fun s w => w = Rabs s)); eauto using vec_nth.
  intros s w X Hs ->. auto.
Qed.

(** ** Assignment operators with a tube: += -= *= /= *)
Section scal_loop.
  Variables (F : itv -> itv -> itv) (a : targ) (v : list tube) (rd : nat -> tube).
  Let inv k cur := length cur = length v /\
    forall i, nth_error cur i = option_map (fun y => if Nat.ltb i k then tube_assign F y (rd i) else y) (nth_error v i).
  Hypothesis Hrd : forall k cur, inv k cur -> (k < length v)%nat -> read cur a = Some (rd k).
  Lemma scal_loop_inv : forall n k cur, (k + n = length v)%nat -> inv k cur ->
    exists w, assign_scal_loop F a (seq k n) cur = Some w /\ inv (length v) w.
  Proof.
    induction n as [|n IH]; intros k cur L I; cbn.
    - exists cur. split; auto. replace (length v) with k by lia. exact I.
    - rewrite (Hrd k cur I) by lia. apply IH; [lia|]. destruct I as [Lc I]. split; [rewrite upd_length; auto|].
      intros i. rewrite nth_error_upd, I. destruct (nth_error v i) as [y|]; cbn [option_map]; [|destruct (Nat.eqb i k); auto].
      destruct (Nat.eqb_spec i k).
      + subst i. destruct (Nat.ltb_spec k k), (Nat.ltb_spec k (Datatypes.S k)); auto; lia.
      + destruct (Nat.ltb_spec i k), (Nat.ltb_spec i (Datatypes.S k)); auto; lia.
  Qed.
  Lemma scal_loop_all : exists w, assign_scal_loop F a (seq 0 (length v)) v = Some w /\ length w = length v /\
    forall i, nth_error w i = option_map (fun y => tube_assign F y (rd i)) (nth_error v i).
  Proof.
    destruct (scal_loop_inv (length v) 0 v) as (w & E & Lw & I); [auto|split; auto; intros i; destruct (nth_error v i); auto|].
    exists w. split; auto. split; auto. intros i. rewrite I. destruct (nth_error v i) eqn:Ei; cbn [option_map]; auto.
    replace (Nat.ltb i (length v)) with true; auto. symmetry. apply Nat.ltb_lt. apply nth_error_Some. congruence.
  Qed.
End scal_loop.

(** the tubes of the vector have the slices of [x], as asserted *)
Definition sliced_as (x : tube) (v : list tube) : Prop := forall y, List.In y v -> same_slicing y x = true.

(** An interval or a trajectory as operand of all the components *)
Theorem C107_uniform : forall a b F op v f h, encloses F op -> vec_ok a b v -> vhas v f ->
  (forall c i, In c i -> (forall k t, a <= t <= b -> op (f k t) c (h k t)) ->
     length (vec_assign_itv F v i) = length v /\ vhas (vec_assign_itv F v i) h) /\
  (forall tr g, tr_of tr g -> (forall k t, a <= t <= b -> op (f k t) (g t) (h k t)) ->
     length (vec_assign_traj F v tr) = length v /\ vhas (vec_assign_traj F v tr) h).
Proof.
  intros a b F op v f h HF O H. split.
  - intros c i Hc Hr. unfold vec_assign_itv. split; [apply map_length|]. intros k z Ez. rewrite nth_error_map in Ez.
    destruct (nth_error v k) as [x|] eqn:Ex; [|discriminate]. cbn [option_map] in Ez. injection Ez as <-.
    apply (tube_unary_has a b (fun q => F q i) x (f k) (h k) (fun s w => op s c w)); eauto using vec_nth.
  - intros tr g Hg Hr. unfold vec_assign_traj. split; [apply map_length|]. intros k z Ez. rewrite nth_error_map in Ez.
    destruct (nth_error v k) as [x|] eqn:Ex; [|discriminate]. cbn [option_map] in Ez. injection Ez as <-.
    apply (tube_assign_traj_has a b F x tr (f k) (h k) g op); eauto using vec_nth.
Qed.
(** The argument is an object of its own: each component is combined with it *)
Theorem C107_scalar : forall a b F op v x f g h, encloses F op -> vec_ok a b v -> tube_ok a b x -> sliced_as x v ->
  vhas v f -> has x g -> (forall i t, a <= t <= b -> op (f i t) (g t) (h i t)) ->
  exists w, vec_assign_tube F (Other x) v = Some w /\ length w = length v /\ vhas w h.
Proof.
  intros a b F op v x f g h HF O Ox S H Hg Hr. unfold vec_assign_tube. cbn [read].
  rewrite (tdomain_ok a b x Ox), (vec_tdomain_ok a b v O), same_tdom_refl. rewrite (proj2 (forallb_forall _ v)) by auto. cbn [andb].
  destruct (scal_loop_all F (Other x) v (fun _ => x)) as (w & -> & L & K); [reflexivity|]. exists w. split; auto. split; auto.
  intros i z Ez. rewrite K in Ez. destruct (nth_error v i) as [y|] eqn:E; [|discriminate]. injection Ez as <-.
  apply (tube_assign_has a b F y x (f i) g (h i) op); eauto using vec_nth.
Qed.
(** The argument is component [j] of the vector: the components up to [j] are combined with its value before the call, the
    next ones with its value after its own update *)
Theorem C107_own : forall a b F v j x, vec_ok a b v -> nth_error v j = Some x -> sliced_as x v ->
  exists w, vec_assign_tube F (Own j) v = Some w /\ length w = length v /\
    forall i, nth_error w i = option_map (fun y => tube_assign F y (if Nat.leb i j then x else tube_assign F x x)) (nth_error v i).
Proof.
  intros a b F v j x O Ej S. unfold vec_assign_tube. cbn [read]. rewrite Ej.
  rewrite (tdomain_ok a b x (vec_nth _ _ _ _ _ O Ej)), (vec_tdomain_ok a b v O), same_tdom_refl.
  rewrite (proj2 (forallb_forall _ v)) by auto. cbn [andb].
  apply scal_loop_all. intros k cur [Lc I] Hk. cbn [read]. rewrite I, Ej. cbn [option_map]. f_equal.
  destruct (Nat.ltb_spec j k), (Nat.leb_spec k j); auto; try lia. rewrite Nat.leb_refl. reflexivity.
Qed.
(** so the components up to [j] are right, hence all of them when [j] is the last one; the others hold the operation applied
    with the updated component *)
Theorem C107_own_partial : forall a b F op v j x f h, encloses F op -> mono2 F -> vec_ok a b v -> nth_error v j = Some x -> sliced_as x v ->
  vhas v f -> (forall i t, a <= t <= b -> op (f i t) (f j t) (h i t)) ->
  exists w, vec_assign_tube F (Own j) v = Some w /\ length w = length v /\
    (forall i y, (i <= j)%nat -> nth_error w i = Some y -> has y (h i)) /\
    (forall h', (forall i t, a <= t <= b -> op (f i t) (h j t) (h' i t)) -> forall i y, (j < i)%nat -> nth_error w i = Some y -> has y (h' i)).
Proof.
  intros a b F op v j x f h HF HM O Ej S H Hr. destruct (C107_own a b F v j x O Ej S) as (w & E & L & K). exists w. split; auto. split; auto.
  pose proof (vec_nth _ _ _ _ _ O Ej) as Ox. split.
  - intros i z Hi Ez. rewrite K in Ez. destruct (nth_error v i) as [y|] eqn:Ei; [|discriminate]. injection Ez as <-.
    rewrite (proj2 (Nat.leb_le i j) Hi). apply (tube_assign_has a b F y x (f i) (f j) (h i) op); eauto using vec_nth.
  - intros h' Hr' i z Hi Ez. rewrite K in Ez. destruct (nth_error v i) as [y|] eqn:Ei; [|discriminate]. injection Ez as <-.
    rewrite (proj2 (Nat.leb_gt i j) Hi). apply (tube_assign_has a b F y (tube_assign F x x) (f i) (h j) (h' i) op); eauto using vec_nth.
    + apply tube_assign_ok; auto.
    + apply (tube_assign_has a b F x x (f j) (f j) (h j) op); eauto.
Qed.

(** ** The operators of Slice applied to the slices of a tube *)
(** number of writes to the gate of rank [g] when the operator has been applied to the [m] first slices *)
Definition writes (g m : nat) : nat := ((if Nat.leb 1 g && Nat.ltb (g - 1) m then 1 else 0) + (if Nat.ltb g m then 1 else 0))%nat.
Definition after (F : itv -> itv) (m j : nat) (s : slice) : slice :=
  mkS (s_lb s) (s_ub s) (if Nat.ltb j m then F (s_cod s) else s_cod s) (Nat.iter (writes j m) F (s_in s)) (Nat.iter (writes (Datatypes.S j) m) F (s_out s)).

Lemma writes_next g m : writes g (Datatypes.S m) = (writes g m + (if Nat.eqb g m then 1 else 0) + (if Nat.eqb g (Datatypes.S m) then 1 else 0))%nat.
Proof.
  unfold writes. repeat match goal with |- context [Nat.leb ?a ?b] => destruct (Nat.leb_spec a b) end;
  repeat match goal with |- context [Nat.ltb ?a ?b] => destruct (Nat.ltb_spec a b) end;
  repeat match goal with |- context [Nat.eqb ?a ?b] => destruct (Nat.eqb_spec a b) end; cbn; lia.
Qed.
Lemma iter_S {A} n (F : A -> A) x : F (Nat.iter n F x) = Nat.iter (Datatypes.S n) F x.
Proof. reflexivity. Qed.

Lemma slices_inv F x : gates_shared x -> forall m, (m <= length x)%nat ->
  forall j, nth_error (fold_left (fun acc k => slice_assign F k acc) (seq 0 m) x) j = option_map (after F m j) (nth_error x j).
Proof.
  intros HS. rewrite gates_shared_nth in HS. induction m as [|m IH]; intros Hm j.
  - cbn. destruct (nth_error x j) as [s|]; auto. cbn. f_equal. unfold after. destruct s; cbn. destruct j; reflexivity.
  - rewrite seq_S, fold_left_app. cbn [fold_left Nat.add]. specialize (IH ltac:(lia)). set (cur := fold_left _ (seq 0 m) x) in *.
    destruct (nth_error x m) as [sm|] eqn:Em; [|apply nth_error_None in Em; lia].
    assert (Ec : nth_error cur m = Some (after F m m sm)) by (rewrite IH, Em; auto).
    unfold slice_assign. rewrite (sl_nth _ _ _ Ec). unfold set_output_gate, set_input_gate, set_envelope. rewrite Ec. unfold put_gate.
    replace (match m with O => upd m (set_cod (F (s_cod (after F m m sm)))) cur | Datatypes.S k' => upd k' (set_out (F (s_in (after F m m sm)))) (upd m (set_cod (F (s_cod (after F m m sm)))) cur) end)
      with (if Nat.eqb m 0 then upd m (set_cod (F (s_cod (after F m m sm)))) cur else upd (m - 1) (set_out (F (s_in (after F m m sm)))) (upd m (set_cod (F (s_cod (after F m m sm)))) cur))
      by (destruct m; cbn; rewrite ?Nat.sub_0_r; auto).
    rewrite !nth_error_upd. destruct (nth_error x j) as [s|] eqn:Ej.
    2:{ destruct (Nat.eqb m 0); rewrite ?nth_error_upd, IH, Ej; cbn; destruct (Nat.eqb j (Datatypes.S m)), (Nat.eqb j m), (Nat.eqb j (m - 1)); auto. }
    assert (Ecj : nth_error cur j = Some (after F m j s)) by (rewrite IH, Ej; auto).
    assert (G1 : j = Datatypes.S m -> s_out sm = s_in s) by (intros ->; apply (HS m sm s); auto).
    assert (G2 : m <> 0%nat -> j = (m - 1)%nat -> s_out s = s_in sm).
    { intros Hm0 ->. apply (HS (m - 1)%nat s sm); auto. replace (Datatypes.S (m - 1)) with m by lia. auto. }
    assert (G3 : j = m -> s = sm) by (intros ->; congruence).
    destruct (Nat.eqb_spec m 0) as [Z|Z]; rewrite ?nth_error_upd, Ecj; cbn [option_map];
    destruct (Nat.eqb_spec j (Datatypes.S m)) as [A|A]; destruct (Nat.eqb_spec j m) as [B|B]; try lia; try (destruct (Nat.eqb_spec j (m - 1)) as [C|C]; try lia);
      cbn [option_map]; f_equal; unfold after, set_in, set_out, set_cod; cbn [s_lb s_ub s_cod s_in s_out];
      rewrite ?iter_S; f_equal;
      repeat match goal with |- context [Nat.ltb ?a ?b] => destruct (Nat.ltb_spec a b); try lia end; auto;
      try rewrite (G3 B); rewrite ?(writes_next (Datatypes.S j)), ?(writes_next j);
      repeat match goal with |- context [Nat.eqb ?a ?b] => destruct (Nat.eqb_spec a b); try lia end;
      try (rewrite !Nat.add_0_r; reflexivity);
      try rewrite (G1 A); try rewrite (G2 Z C); try (f_equal; lia).
  all: try (rewrite A); try (rewrite B); try (replace (Datatypes.S j) with m by lia); f_equal; lia.
Qed.

(** The operator applied to one slice does the right thing on this slice... *)
Theorem C108_slice : forall a b F (op : R -> R -> Prop) x k s f g, (forall v w X, In v X -> op v w -> In w (F X)) -> tube_ok a b x -> nth_error x k = Some s ->
  has x f -> (forall t, a <= t <= b -> op (f t) (g t)) ->
  exists s', nth_error (slice_assign F k x) k = Some s' /\ s_lb s' = s_lb s /\ s_ub s' = s_ub s /\ slice_has s' g.
Proof.
  intros a b F op x k s f g HF O Es Hf Hr.
  assert (Hin : List.In s x) by (eapply nth_error_In; eauto).
  destruct (chain_in_bounds _ _ _ _ (ok_chain _ _ _ O) Hin) as (B1 & B2 & B3). destruct (Hf s Hin) as (F1 & F2 & F3).
  exists (mkS (s_lb s) (s_ub s) (F (s_cod s)) (F (s_in s)) (F (s_out s))). split.
  - unfold slice_assign. rewrite (sl_nth _ _ _ Es). unfold set_output_gate, set_input_gate, set_envelope. rewrite Es. unfold put_gate.
    rewrite !nth_error_upd. replace (Nat.eqb k (Datatypes.S k)) with false by (symmetry; apply Nat.eqb_neq; lia). rewrite Nat.eqb_refl.
    assert (E : nth_error (upd k (set_cod (F (s_cod s))) x) k = Some (set_cod (F (s_cod s)) s)) by (rewrite nth_error_upd, Nat.eqb_refl, Es; auto).
    destruct k as [|k']; [rewrite E; reflexivity|]. rewrite nth_error_upd.
    replace (Nat.eqb (Datatypes.S k') k') with false by (symmetry; apply Nat.eqb_neq; lia). rewrite E. reflexivity.
  - split; auto. split; auto. split; [|split]; cbn.
    + apply (HF (f (s_lb s))); auto. apply Hr; lra.
    + apply (HF (f (s_ub s))); auto. apply Hr; lra.
    + intros t Ht. apply (HF (f t)); auto. apply Hr; lra.
Qed.
(** ... but the gates belong to two slices: when it is applied to each slice of the tube, each inner gate gets it twice *)
Theorem C108_twice : forall F x j s, gates_shared x -> nth_error x j = Some s ->
  nth_error (slices_assign F x) j = Some (mkS (s_lb s) (s_ub s) (F (s_cod s)) (if Nat.eqb j 0 then F (s_in s) else F (F (s_in s)))
    (if Nat.eqb (Datatypes.S j) (length x) then F (s_out s) else F (F (s_out s)))).
Proof.
  intros F x j s HS Es. unfold slices_assign. rewrite slices_inv by auto. rewrite Es. cbn [option_map]. f_equal. unfold after, writes.
  assert (Hj : (j < length x)%nat) by (apply nth_error_Some; congruence). f_equal;
  repeat match goal with |- context [Nat.leb ?a ?b] => destruct (Nat.leb_spec a b); try lia end;
  repeat match goal with |- context [Nat.ltb ?a ?b] => destruct (Nat.ltb_spec a b); try lia end;
  repeat match goal with |- context [Nat.eqb ?a ?b] => destruct (Nat.eqb_spec a b); try lia end; reflexivity.
Qed.
(** so that the loop is right for an operation that does nothing the second time (|= and &=) ... *)
Theorem C108_slices_partial : forall a b F (op : R -> R -> Prop) x f g, (forall v w X, In v X -> op v w -> In w (F X)) ->
  (forall X, F (F X) = F X) \/ length x = 1%nat -> tube_ok a b x -> has x f -> (forall t, a <= t <= b -> op (f t) (g t)) -> has (slices_assign F x) g.
Proof.
  intros a b F op x f g HF HI O Hf Hr s' Hs'. apply In_nth_error in Hs'. destruct Hs' as [j Ej].
  destruct (nth_error x j) as [s|] eqn:Es.
  2:{ unfold slices_assign in Ej. rewrite slices_inv in Ej by (auto; apply O). rewrite Es in Ej. discriminate. }
  rewrite (C108_twice F x j s (ok_shared _ _ _ O) Es) in Ej. remember (Nat.eqb (Datatypes.S j) (length x)) as q eqn:Eq. injection Ej as <-.
  assert (Hin : List.In s x) by (eapply nth_error_In; eauto).
  assert (Hj : (j < length x)%nat) by (apply nth_error_Some; congruence).
  destruct (chain_in_bounds _ _ _ _ (ok_chain _ _ _ O) Hin) as (B1 & B2 & B3). destruct (Hf s Hin) as (F1 & F2 & F3).
  assert (T : In (g (s_lb s)) (F (s_in s)) /\ In (g (s_ub s)) (F (s_out s))).
  { split; [apply (HF (f (s_lb s)))|apply (HF (f (s_ub s)))]; auto; apply Hr; lra. }
  destruct T as [T1 T2]. split; [|split]; cbn [s_lb s_ub s_cod s_in s_out].
  - destruct (Nat.eqb_spec j 0); auto. destruct HI as [HI|HI]; [rewrite HI; auto|lia].
  - destruct q; auto. symmetry in Eq. apply Nat.eqb_neq in Eq. destruct HI as [HI|HI]; [rewrite HI; auto|lia].
  - intros t Ht. apply (HF (f t)); auto. apply Hr; lra.
Qed.
(** ... and wrong otherwise: adding 1 to each slice of the zero tube gives a tube without the trajectory 1 *)
Definition tZ : tube := [mkS 0 1 (I2 0 0) (I2 0 0) (I2 0 0); mkS 1 2 (I2 0 0) (I2 0 0) (I2 0 0)].
Lemma tZ_ok : tube_ok 0 2 tZ. Proof. tube_ok_tac. Qed.
Theorem C108_slices_refuted : exists x f, tube_ok 0 2 x /\ has x f /\ ~ has (slices_assign (fun c => iadd exact c (pt 1)) x) (fun t => f t + 1) /\
  has (tube_assign_itv (iadd exact) x (pt 1)) (fun t => f t + 1).
Proof.
  exists tZ, (fun _ => 0). split; [exact tZ_ok|].
  assert (H : has tZ (fun _ => 0)).
  { intros s [<-|[<-|[]]]; unfold slice_has; cbn; repeat split; intros; lra. }
  split; auto. split.
  - intros C. pose proof (C108_twice (fun c => iadd exact c (pt 1)) tZ 1 _ (ok_shared _ _ _ tZ_ok) eq_refl) as E.
    apply nth_error_In in E. specialize (C _ E). destruct C as (C & _). cbn in C. lra.
  - apply (tube_unary_has 0 2 (fun c => iadd exact c (pt 1)) tZ (fun _ => 0) _ (fun v w => w = v + 1)); auto; [|exact tZ_ok].
    intros v w X Hv ->. apply (iadd_in exact exact_ok); auto. apply In_pt; auto.
Qed.

(** ** The refutation for an argument taken in the vector *)
Theorem C107_own_refuted : exists a b v x f, vec_ok a b v /\ nth_error v 0 = Some x /\ sliced_as x v /\ vhas v f /\
  exists w, vec_assign_tube (isub exact) (Own 0) v = Some w /\ ~ vhas w (fun i t => f i t - f 0%nat t) /\
    exists y, nth_error w 1 = Some y /\ has y (fun _ => 1) /\ forall i t, f i t - f 0%nat t = 0.
Proof.
  set (c := [mkS 0 1 (I2 1 1) (I2 1 1) (I2 1 1)]). assert (Oc : tube_ok 0 1 c) by (unfold c; tube_ok_tac).
  assert (Hc : has c (fun _ => 1)) by (intros s [<-|[]]; unfold slice_has; cbn; repeat split; intros; lra).
  exists 0, 1, [c; c], c, (fun _ _ => 1). assert (O : vec_ok 0 1 [c; c]) by (split; [discriminate|constructor; [exact Oc|constructor; [exact Oc|constructor]]]).
  assert (S : sliced_as c [c; c]) by (intros y [<-|[<-|[]]]; apply same_slicing_dom; reflexivity).
  assert (H : vhas [c; c] (fun _ _ => 1)) by (intros [|[|i]] x E; cbn in E; try (injection E as <-; exact Hc); destruct i; discriminate).
  split; auto. split; [reflexivity|]. split; auto. split; auto.
  destruct (C107_own 0 1 (isub exact) [c; c] 0 c O eq_refl S) as (w & E & L & K). exists w. split; auto.
  pose proof (K 1%nat : nth_error w 1 = Some (tube_assign (isub exact) c (tube_assign (isub exact) c c))) as K1.
  assert (same_slicing c c = true) as Sc by (apply same_slicing_dom; reflexivity).
  assert (E0 : tube_assign (isub exact) c c = [mkS 0 1 (I2 0 0) (I2 0 0) (I2 0 0)]).
  { unfold tube_assign. rewrite Sc. unfold c, map_loop, sl. cbn. unfold set_out, set_in, set_cod. cbn. replace (1 + - (1)) with 0 by lra. reflexivity. }
  rewrite E0 in K1. assert (E1 : tube_assign (isub exact) c [mkS 0 1 (I2 0 0) (I2 0 0) (I2 0 0)] = c).
  { unfold tube_assign. replace (same_slicing c _) with true by (symmetry; apply same_slicing_dom; reflexivity). unfold c, map_loop, sl. cbn. unfold set_out, set_in, set_cod. cbn. replace (1 + - 0) with 1 by lra. reflexivity. }
  rewrite E1 in K1. split.
  - intros C. specialize (C _ _ K1 _ (or_introl eq_refl)). destruct C as (C & _). cbn in C. lra.
  - exists c. split; auto. split; auto. intros. lra.
Qed.

(** ** Trajectories *)
Lemma assign_def op y x : traj_ok x -> traj_ok y -> t_dom x = t_dom y -> exists z, traj_assign op y x = Some z.
Proof.
  intros Hx Hy Ed. unfold traj_assign. rewrite Ed, itv_eqb_refl. pose proof Hx as (Fx & _). rewrite Fx.
  destruct (sample_as_def x y (fun _ => Hy) Fx Hx (eq_sym Ed)) as [ys Es]. rewrite Es.
  pose proof (ok_sample_as _ _ _ Hy Es) as Oys. destruct (sample_as_spec _ _ _ (fun _ => Hy) Es) as (_ & _ & _ & Dy & _).
  assert (G : forall l, (forall k v, List.In (k, v) l -> In k (t_dom x)) -> exists m, assign_loop op x l = Some m).
  { induction l as [|[k v] l IH]; intros Hk; cbn; [eauto|].
    destruct (dom_contains x k Hx) as [H _]. destruct (H (Hk _ _ (or_introl eq_refl))) as [u Eu]. rewrite traj_at_pl, Eu by auto.
    destruct IH as [m ->]; [intros; eapply Hk; right; eauto|eauto]. }
  destruct (G (t_map ys)) as [m ->]; [|eauto]. intros k v Hk. rewrite Ed, <- Dy. destruct Oys as (_ & _ & (_ & A & _) & _). apply A. exists v. auto.
Qed.

Section jloop.
  Variables (op : R -> R -> R) (a : jarg) (v : list traj) (rd : nat -> traj).
  Let inv k cur := length cur = length v /\ forall i y, nth_error v i = Some y ->
    exists z, nth_error cur i = Some z /\ if Nat.ltb i k then traj_assign op (rd i) y = Some z else z = y.
  Hypothesis Hrd : forall k cur, inv k cur -> (k < length v)%nat -> jread cur a = Some (rd k).
  Hypothesis Hdef : forall k y, nth_error v k = Some y -> exists z, traj_assign op (rd k) y = Some z.
  Lemma jloop_inv : forall n k cur, (k + n = length v)%nat -> inv k cur -> exists w, jassign_loop op a (seq k n) cur = Some w /\ inv (length v) w.
  Proof.
    induction n as [|n IH]; intros k cur L I; cbn [seq jassign_loop].
    - exists cur. split; auto. replace (length v) with k by lia. exact I.
    - rewrite (Hrd k cur I) by lia. destruct (nth_error v k) as [y|] eqn:Ek; [|apply nth_error_None in Ek; lia].
      destruct (proj2 I k y Ek) as (z0 & Ez0 & Hz0). destruct (Nat.ltb_spec k k); [lia|]. subst z0. rewrite Ez0.
      destruct (Hdef k y Ek) as [z Ez]. rewrite Ez. apply IH; [lia|]. destruct I as [Lc I]. split; [rewrite upd_length; auto|].
      intros i y' Ei. destruct (I i y' Ei) as (u & Eu & Hu). rewrite nth_error_upd, Eu. destruct (Nat.eqb_spec i k).
      + subst i. exists z. split; [reflexivity|]. destruct (Nat.ltb_spec k (Datatypes.S k)); [congruence|lia].
      + exists u. split; auto. destruct (Nat.ltb_spec i k), (Nat.ltb_spec i (Datatypes.S k)); auto; lia.
  Qed.
  Lemma jloop_all : exists w, jassign_loop op a (seq 0 (length v)) v = Some w /\ length w = length v /\
    forall i y, nth_error v i = Some y -> exists z, nth_error w i = Some z /\ traj_assign op (rd i) y = Some z.
  Proof.
    destruct (jloop_inv (length v) 0 v) as (w & E & Lw & I); [auto|split; auto; intros i y Ei; exists y; split; [exact Ei|reflexivity]|].
    exists w. split; auto. split; auto. intros i y Ei. destruct (I i y Ei) as (z & Ez & Hz). exists z. split; auto.
    assert (Hi : (i < length v)%nat) by (apply nth_error_Some; congruence). destruct (Nat.ltb_spec i (length v)); auto; lia.
  Qed.
End jloop.

(** a vector of sampled trajectories on the temporal domain of [x] *)
Definition jvec_ok (x : traj) (v : list traj) : Prop := v <> [] /\ traj_ok x /\ forall y, List.In y v -> traj_ok y /\ t_dom y = t_dom x.

Theorem C107_jscalar : forall op v x, jvec_ok x v -> exists w, jvec_assign op (JOther x) v = Some w /\ length w = length v /\
  forall i y, nth_error v i = Some y -> exists z, nth_error w i = Some z /\ pointwise op y x z.
Proof.
  intros op v x (N & Ox & H). unfold jvec_assign. cbn [jread]. destruct v as [|y0 r] eqn:Ev; [congruence|]. rewrite <- Ev in *.
  assert (t_dom y0 = t_dom x) as -> by (apply H; rewrite Ev; left; auto). rewrite itv_eqb_refl.
  destruct (jloop_all op (JOther x) v (fun _ => x)) as (w & E & L & K); [reflexivity| |].
  { intros k y Ek. apply nth_error_In in Ek. destruct (H y Ek). apply assign_def; auto. }
  exists w. split; auto. split; auto. intros i y Ei. destruct (K i y Ei) as (z & Ez & Hz). exists z. split; auto.
  apply nth_error_In in Ei. destruct (H y Ei). apply (C59_assign_partial op x y z); auto. intros _; auto.
Qed.
(** component [j] as argument: the components up to [j] are right, the next ones use its new value [x'] *)
Theorem C107_jown_partial : forall op v j x, jvec_ok x v -> nth_error v j = Some x ->
  exists w x', jvec_assign op (JOwn j) v = Some w /\ length w = length v /\ nth_error w j = Some x' /\ pointwise op x x x' /\
  forall i y, nth_error v i = Some y -> exists z, nth_error w i = Some z /\ pointwise op y (if Nat.leb i j then x else x') z.
Proof.
  intros op v j x (N & Ox & H) Ej. destruct (assign_def op x x Ox Ox eq_refl) as [x' Ex'].
  destruct (assign_spec op x x x' Ox (fun _ => Ox) Ex') as (_ & Ox' & Dx' & _).
  unfold jvec_assign. cbn [jread]. rewrite Ej. destruct v as [|y0 r] eqn:Ev; [congruence|]. rewrite <- Ev in *.
  assert (t_dom y0 = t_dom x) as -> by (apply H; rewrite Ev; left; auto). rewrite itv_eqb_refl.
  destruct (jloop_all op (JOwn j) v (fun i => if Nat.leb i j then x else x')) as (w & E & L & K).
  { intros k cur [Lc I] Hk. cbn [jread]. destruct (I j x Ej) as (z & Ez & Hz). rewrite Ez. f_equal. rewrite Nat.leb_refl in Hz.
    destruct (Nat.ltb_spec j k), (Nat.leb_spec k j); try lia; congruence. }
  { intros k y Ek. apply nth_error_In in Ek. destruct (H y Ek). apply assign_def; destruct (Nat.leb k j); congruence || auto. }
  exists w, x'. split; auto. split; auto. split; [|split].
  - destruct (K j x Ej) as (z & Ez & Hz). rewrite Nat.leb_refl in Hz. congruence.
  - apply (C59_assign_partial op x x x'); auto. intros _; auto.
  - intros i y Ei. destruct (K i y Ei) as (z & Ez & Hz). exists z. split; auto. apply nth_error_In in Ei. destruct (H y Ei).
    apply (C59_assign_partial op _ y z); auto. intros _. destruct (Nat.leb i j); auto.
Qed.
Theorem C107_jown_refuted : exists v x, jvec_ok x v /\ nth_error v 0 = Some x /\
  exists w y z, jvec_assign Rminus (JOwn 0) v = Some w /\ nth_error v 1 = Some y /\ nth_error w 1 = Some z /\ ~ pointwise Rminus y x z /\
    traj_at x 0 = Some 1 /\ traj_at y 0 = Some 1 /\ traj_at z 0 = Some 1.
Proof.
  set (m := [(0, 1); (1, 1)]). assert (Sm : sorted m) by (repeat split; repeat (constructor; cbn; try lra)).
  set (x := traj_map m). assert (Ox : traj_ok x) by (apply ok_map; auto).
  assert (Hv : jvec_ok x [x; x]) by (split; [discriminate|]; split; auto; intros y [<-|[<-|[]]]; auto).
  assert (V : traj_at x 0 = Some 1) by (rewrite traj_at_pl by auto; apply pl_key; [exact Sm|left; auto]).
  assert (K0 : is_key (t_map x) 0) by (exists 1; left; auto).
  exists [x; x], x. split; auto. split; [reflexivity|].
  destruct (C107_jown_partial Rminus [x; x] 0 x Hv eq_refl) as (w & x' & E & L & E0 & (P1 & P2) & K). exists w, x.
  destruct (K 1%nat x eq_refl) as (z & Ez & (Q1 & Q2)). cbn [Nat.leb] in Q1, Q2. exists z.
  assert (K0' : is_key (t_map x') 0) by (apply P1; unfold op_keys; cbn; auto).
  assert (K0z : is_key (t_map z) 0) by (apply Q1; unfold op_keys; cbn; auto).
  destruct (P2 0 K0') as (u & u' & Eu & Eu' & Ex'). destruct (Q2 0 K0z) as (q & q' & Eq & Eq' & Eqz).
  assert (traj_at z 0 = Some 1) by (rewrite Eqz; f_equal; assert (q' = u - u') by congruence; assert (u = 1 /\ u' = 1 /\ q = 1) as (-> & -> & ->) by (repeat split; congruence); lra).
  split; auto. split; [reflexivity|]. split; auto. split; auto.
  intros (C1 & C2). destruct (C2 0 K0z) as (r & r' & Er & Er' & Erz). assert (r = 1 /\ r' = 1) as (-> & ->) by (split; congruence).
  assert (1 = 1 - 1) by congruence. lra.
Qed.

(** ** Concrete cases *)
Lemma xadd_split X Y z : wf X -> wf Y -> In z (xadd X Y) -> exists x y, In x X /\ In y Y /\ z = x + y.
Proof.
  destruct X as [|[a|] [b|]], Y as [|[c|] [d|]]; cbn; try tauto; intros W1 W2 H;
  match goal with
  | |- exists x y, (a <= x <= b) /\ (c <= y <= d) /\ _ => exists (Rmax a (z - d)), (z - Rmax a (z - d)); unfold Rmax; destruct (Rle_dec a (z - d)); lra
  | _ => idtac
  end; try (exists a, (z - a); lra); try (exists b, (z - b); lra); try (exists (z - c), c; lra); try (exists (z - d), d; lra); try (exists 0, z; lra);
  try (exists (Rmax a (z - d)), (z - Rmax a (z - d)); unfold Rmax; destruct (Rle_dec a (z - d)); lra);
  try (exists (z - Rmax c (z - b)), (Rmax c (z - b)); unfold Rmax; destruct (Rle_dec c (z - b)); lra).
Qed.
Lemma mono1_neg : mono1 (ineg exact).
Proof.
  split; [apply (ineg_wf exact exact_ok)|]. intros X X' W W' H v Hv. cbn [ineg exact] in *.
  assert (Hv' : In (- v) X) by (destruct X as [|[a|] [b|]]; cbn in *; lra).
  apply H in Hv'. replace v with (- - v) by lra. apply (ineg_in exact exact_ok); auto.
Qed.
Lemma mono2_add : mono2 (iadd exact).
Proof.
  split; [apply (iadd_wf exact exact_ok)|]. intros X X' Y Y' W1 W2 W3 W4 H1 H2 z Hz. cbn [iadd exact] in Hz.
  destruct (xadd_split X Y z W1 W3 Hz) as (x & y & Hx & Hy & ->). apply (iadd_in exact exact_ok); auto.
Qed.
Lemma mono2_sub : mono2 (isub exact).
Proof.
  split; [apply (isub_wf exact exact_ok)|]. intros X X' Y Y' W1 W2 W3 W4 H1 H2 z Hz. cbn [isub exact] in Hz. unfold xsub in Hz.
  destruct (xadd_split X (xneg Y) z W1 (ineg_wf exact exact_ok Y W3) Hz) as (x & y & Hx & Hy & ->).
  apply (proj2 mono1_neg Y Y' W3 W4 H2) in Hy. replace (x + y) with (x - - y) by lra. apply (isub_in exact exact_ok); auto.
  cbn [ineg exact] in Hy. destruct Y' as [|[c|] [d|]]; cbn in *; lra.
Qed.
Definition vE : list tube := [tA; tB].
Lemma vE_ok : vec_ok 0 2 vE.
Proof. split; [discriminate|constructor; [exact tA_ok|constructor; [exact tB_ok|constructor]]]. Qed.
Lemma vE_has : vhas vE (fun _ => fA).
Proof. intros [|[|i]] x E; cbn in E; [injection E as <-; exact tA_fA|injection E as <-; exact tB_fA|destruct i; discriminate]. Qed.
Lemma vA_ok : vec_ok 0 2 [tA; tA].
Proof. split; [discriminate|constructor; [exact tA_ok|constructor; [exact tA_ok|constructor]]]. Qed.
Lemma vA_has : vhas [tA; tA] (fun _ => fA).
Proof. intros [|[|i]] x E; cbn in E; [injection E as <-; exact tA_fA|injection E as <-; exact tA_fA|destruct i; discriminate]. Qed.
Lemma vA_sliced : sliced_as tA [tA; tA].
Proof. intros y [<-|[<-|[]]]; apply same_slicing_dom; reflexivity. Qed.
Lemma add_encl : encloses (iadd exact) (fun u v w => w = u + v).
Proof. intros u v w X Y H1 H2 ->. apply (iadd_in exact exact_ok); auto. Qed.
Lemma sub_encl : encloses (isub exact) (fun u v w => w = u - v).
Proof. intros u v w X Y H1 H2 ->. apply (isub_in exact exact_ok); auto. Qed.
(** division of ibex on bounded positive divisors, the whole line otherwise *)
Definition divE (X Y : itv) : itv :=
  match Y with
  | Itv (Some c) (Some d) => if Rltb 0 c then imul exact X (Itv (Some (/ d)) (Some (/ c))) else ALL
  | _ => ALL
  end.
Lemma divE_in s u X Y : In s X -> In u Y -> u <> 0 -> In (s / u) (divE X Y).
Proof.
  intros Hs Hu N. unfold divE. destruct Y as [|[c|] [d|]]; try (apply In_ALL). destruct (Rltb 0 c) eqn:E; [|apply In_ALL].
  apply Rltb_true in E. cbn in Hu. apply (imul_in exact exact_ok); auto. cbn. split; apply Rinv_le_contravar; lra.
Qed.

Example C107_vectors_ex : exists y, vec_op (iadd exact) vE [tB; tA] = Some y /\ length y = 2%nat /\ vhas y (fun _ t => fA t + fA t).
Proof.
  apply (C107_vectors 0 2 _ (fun u v w => w = u + v) vE [tB; tA] (fun _ => fA) (fun _ => fA)); auto using add_encl, vE_ok, vE_has.
  - split; [discriminate|constructor; [exact tB_ok|constructor; [exact tA_ok|constructor]]].
  - intros [|[|i]] x E; cbn in E; [injection E as <-; exact tB_fA|injection E as <-; exact tA_fA|destruct i; discriminate].
Qed.
Example C107_self_ex : exists y, vec_assign (isub exact) vE vE = Some y /\ length y = 2%nat /\ vhas y (fun _ t => fA t - fA t).
Proof. apply (C107_assign 0 2 _ (fun u v w => w = u - v) vE vE (fun _ => fA) (fun _ => fA)); auto using sub_encl, vE_ok, vE_has. Qed.
Example C107_inter_ex : exists y, vec_op inter vE [tB; tA] = Some y /\ vhas y (fun _ => fA).
Proof.
  assert (O : vec_ok 0 2 [tB; tA]) by (split; [discriminate|constructor; [exact tB_ok|constructor; [exact tA_ok|constructor]]]).
  assert (H : vhas [tB; tA] (fun _ => fA)) by (intros [|[|i]] x E; cbn in E; [injection E as <-; exact tB_fA|injection E as <-; exact tA_fA|destruct i; discriminate]).
  destruct (zipw_some (tube_binary inter) vE [tB; tA] eq_refl) as [y E].
  assert (E' : vec_op inter vE [tB; tA] = Some y) by (unfold vec_op; rewrite (vec_tdomain_ok 0 2 vE vE_ok), (vec_tdomain_ok 0 2 _ O), same_tdom_refl; auto).
  exists y. split; auto. apply (C107_inter 0 2 vE [tB; tA] y _ vE_ok O E'). split; auto using vE_has.
Qed.
Example C107_box_ex : exists y, box_op_vec (isub exact) [I2 0 1; I2 3 4] vE = Some y /\ length y = 2%nat /\ vhas y (fun i t => (if Nat.eqb i 0 then 1 else 3) - fA t).
Proof.
  apply (C107_box 0 2 _ (fun u v w => w = u - v) vE [I2 0 1; I2 3 4] (fun _ => fA) (fun i => if Nat.eqb i 0 then 1 else 3)); auto using sub_encl, vE_ok, vE_has.
  intros [|[|i]] c E; cbn in E; [injection E as <-; cbn; lra|injection E as <-; cbn; lra|destruct i; discriminate].
Qed.
Example C107_traj_ex : exists y, traj_sub_vec exact [(fun i => i); (fun i => i)] vE = Some y /\ length y = 2%nat /\ vhas y (fun _ t => t - fA t).
Proof.
  apply (C107_traj_sub exact 0 2 _ vE (fun _ => fA) (fun _ t => t)); auto using exact_ok, mono1_neg, vE_ok, vE_has.
  intros [|[|i]] tr E; cbn in E; [injection E as <-; intros j t H; exact H|injection E as <-; intros j t H; exact H|destruct i; discriminate].
Qed.
Definition tP : tube := [mkS 0 2 (I2 1 2) (I2 1 2) (I2 1 2)].
Lemma tP_ok : tube_ok 0 2 tP. Proof. tube_ok_tac. Qed.
Lemma tP_has : has tP (fun _ => 2).
Proof. intros s [<-|[]]. unfold slice_has. cbn. repeat split; intros; lra. Qed.
Example C107_products_ex : exists y, tube_mul_vec exact tP vE = Some y /\ length y = 2%nat /\ vhas y (fun _ t => 2 * fA t).
Proof.
  apply (C107_products exact 0 2 vE tP (I2 0 1) [] (fun _ => ALL) 1 (fun _ => 0) (fun _ => fA) (fun _ => 2) (fun _ => 0)); auto using exact_ok, vE_ok, vE_has, tP_ok, tP_has.
  - cbn; lra.
  - intros [|i] j E; discriminate.
  - intros i t _. apply In_ALL.
Qed.
Example C107_quotients_ex : vhas (box_div_tube divE [I2 4 6] tP) (fun _ t => 6 / 2).
Proof.
  apply (C107_quotients divE 0 2 vE tP (I2 1 2) [I2 4 6] (fun _ => ALL) 1 (fun _ => 6) (fun _ => fA) (fun _ => 2) (fun _ => 1)); auto using divE_in, vE_ok, vE_has, tP_ok, tP_has; try (intros; lra); try (cbn; lra).
  - constructor; [cbn; lra|constructor].
  - intros [|i] j E; cbn in E; [injection E as <-; cbn; lra|destruct i; discriminate].
  - intros i t _. apply In_ALL.
Qed.
Example C107_uniform_ex : vhas (vec_assign_itv (isub exact) vE (I2 1 2)) (fun _ t => fA t - 2) /\ vhas (vec_assign_traj (isub exact) vE (fun i => i)) (fun _ t => fA t - t).
Proof.
  split.
  - apply (proj1 (C107_uniform 0 2 _ (fun u v w => w = u - v) vE (fun _ => fA) (fun _ t => fA t - 2) sub_encl vE_ok vE_has) 2 (I2 1 2)); [cbn; lra|auto].
  - apply (proj2 (C107_uniform 0 2 _ (fun u v w => w = u - v) vE (fun _ => fA) (fun _ t => fA t - t) sub_encl vE_ok vE_has) (fun i => i) (fun t => t)); [|auto].
    intros i t Ht. exact Ht.
Qed.
Example C107_scalar_ex : exists w, vec_assign_tube (isub exact) (Other tA) [tA; tA] = Some w /\ length w = 2%nat /\ vhas w (fun _ t => fA t - fA t).
Proof. apply (C107_scalar 0 2 _ (fun u v w => w = u - v) [tA; tA] tA (fun _ => fA) fA); auto using sub_encl, vA_ok, vA_has, vA_sliced, tA_ok, tA_fA. Qed.
Example C107_own_ex : exists w, vec_assign_tube (isub exact) (Own 1) [tA; tA] = Some w /\ vhas w (fun _ t => fA t - fA t).
Proof.
  destruct (C107_own_partial 0 2 (isub exact) (fun u v w => w = u - v) [tA; tA] 1 tA (fun _ => fA) (fun _ t => fA t - fA t)) as (w & E & L & K & _);
    auto using sub_encl, mono2_sub, vA_ok, vA_has, vA_sliced.
  exists w. split; auto. intros i y Ey. apply (K i y); auto. assert (i < length w)%nat by (apply nth_error_Some; congruence). cbn in L. lia.
Qed.
Example C107_neg_ex : vhas (vec_neg exact vE) (fun _ t => - fA t).
Proof. apply (C107_neg exact 0 2); auto using exact_ok, vE_ok, vE_has. Qed.
Example C107_jscalar_ex : let x := traj_map [(0, 1); (1, 3)] in jvec_ok x [x; traj_map [(0, 5); (1, 2)]].
Proof.
  cbn zeta. assert (S1 : sorted [(0, 1); (1, 3)]) by (repeat split; repeat (constructor; cbn; try lra)).
  assert (S2 : sorted [(0, 5); (1, 2)]) by (repeat split; repeat (constructor; cbn; try lra)).
  split; [discriminate|]. split; [apply ok_map; auto|]. intros y [<-|[<-|[]]]; split; auto; apply ok_map; auto.
Qed.
(** &= with a constant does nothing the second time *)
Example C108_ex : (forall X, inter (inter X (I2 0 3)) (I2 0 3) = inter X (I2 0 3)) /\ has (slices_assign (fun c => inter c (I2 0 3)) tA) fA.
Proof.
  assert (H : forall X, inter (inter X (I2 0 3)) (I2 0 3) = inter X (I2 0 3)).
  { intros X. apply inter_sub_eq; [apply wf_inter|]. intros v Hv. apply In_inter in Hv. apply Hv. }
  split; auto. apply (C108_slices_partial 0 2 (fun c => inter c (I2 0 3)) (fun v w => w = v /\ In w (I2 0 3)) tA fA fA); auto using tA_ok, tA_fA.
  - intros v w X Hv [-> Hw]. apply In_inter. auto.
  - intros t Ht. split; auto. unfold fA. cbn. lra.
Qed.

Print Assumptions C107_vectors.
Print Assumptions C107_assign.
Print Assumptions C107_inter.
Print Assumptions C107_union.
Print Assumptions C107_box.
Print Assumptions C107_traj.
Print Assumptions C107_neg.
Print Assumptions C107_traj_sub.
Print Assumptions C107_products.
Print Assumptions C107_quotients.
Print Assumptions C107_abs.
Print Assumptions C107_uniform.
Print Assumptions C107_scalar.
Print Assumptions C107_own.
Print Assumptions C107_own_partial.
Print Assumptions C107_own_refuted.
Print Assumptions C107_jscalar.
Print Assumptions C107_jown_partial.
Print Assumptions C107_jown_refuted.
Print Assumptions C108_slice.
Print Assumptions C108_twice.
Print Assumptions C108_slices_partial.
Print Assumptions C108_slices_refuted.
