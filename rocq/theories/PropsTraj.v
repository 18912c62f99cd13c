(** * C34, C35, C36, C61: sampled trajectories *)

From Coq Require Import Reals Lra Bool List ZArith Lia.
From Verif Require Import Itv Arith Trajectory TrajFacts Concrete.
Import ListNotations.
Open Scope R_scope.

(** ** C34: evaluation *)

(** The values taken by a trajectory over a set of times. *)
Definition taken (x : traj) (T : R -> Prop) (v : R) : Prop := exists t, T t /\ traj_at x t = Some v.

(** Sampled trajectory whose cached temporal domain is the hull of its sample times (nothing is said
    of the cached codomain). *)
Definition sampled (x : traj) : Prop :=
  t_fun x = None /\ sorted (t_map x) /\ smallest (is_key (t_map x)) (t_dom x).

Lemma sampled_ok x : sampled x -> traj_ok (compute_codomain x).
Proof. intros (Hf & Hs & Hd). unfold compute_codomain. rewrite Hf. apply (ok_compute _ Emp); auto. Qed.
Lemma ok_sampled x : traj_ok x -> sampled x.
Proof. intros (Hf & Hs & Hd & _). repeat split; auto; apply Hd. Qed.
Lemma at_compute x t : traj_at (compute_codomain x) t = traj_at x t.
Proof. reflexivity. Qed.
Lemma at_sampled x t : sampled x -> traj_at x t = pl (t_map x) t.
Proof. intros H. rewrite <- at_compute. apply (traj_at_pl (compute_codomain x)). apply sampled_ok; auto. Qed.

(** x(t) is the sample at a sample time; between two consecutive samples it is on the segment that
    joins them; it is defined exactly on the temporal domain. *)
Theorem C34_eval x : sampled x ->
  (forall t y, List.In (t, y) (t_map x) -> traj_at x t = Some y) /\
  (forall l k1 v1 k2 v2 r t, t_map x = l ++ (k1, v1) :: (k2, v2) :: r -> k1 <= t <= k2 ->
     exists v, traj_at x t = Some v /\ (k2 - k1) * (v - v1) = (t - k1) * (v2 - v1) /\
               Rmin v1 v2 <= v <= Rmax v1 v2) /\
  (forall t, In t (t_dom x) <-> exists v, traj_at x t = Some v).
Proof.
  intros Hx. pose proof Hx as (Hf & Hs & Hd). split; [|split].
  - intros t y H. rewrite at_sampled by auto. apply pl_key; auto.
  - intros l k1 v1 k2 v2 r t E Ht. exists (lerp t (k1, v1) (k2, v2)). rewrite at_sampled by auto.
    assert (Hk : k1 < k2).
    { assert (G : forall l, sorted (l ++ (k1, v1) :: (k2, v2) :: r) -> k1 < k2).
      { clear. induction l as [|p l IH]; cbn [app]; intros H; [apply (sorted_head _ _ _ k2 v2 H); left; auto|].
        apply IH, (sorted_tail _ _ H). }
      apply (G l). rewrite <- E. auto. }
    split; [apply (pl_seg _ l k1 v1 k2 v2 r); auto|]. split.
    + unfold lerp. cbn. field. lra.
    + apply (lerp_between t (k1, v1) (k2, v2)); cbn; lra.
  - intros t. rewrite at_sampled by auto. apply (dom_contains (compute_codomain x)). apply sampled_ok; auto.
Qed.

(** x([a,b]) is defined for each subinterval of the temporal domain, and is the smallest interval that
    contains the values taken over [a,b], if the cached codomain is up to date or [a,b] is not the
    whole temporal domain. *)
Theorem C34_interval x a b : sampled x -> a <= b -> In a (t_dom x) -> In b (t_dom x) ->
  traj_ok x \/ t_dom x <> bnd a b ->
  exists i, traj_on x a b = Some i /\ smallest (taken x (fun t => a <= t <= b)) i.
Proof.
  intros Hx Hab Ha Hb Hc. pose proof Hx as (Hf & Hs & Hd). unfold traj_on.
  assert (Hsub : is_superset (t_dom x) (bnd a b) = true).
  { apply sub_is_subset; [apply wf_mk|]. intros t Ht. apply In_bnd in Ht. apply (In_convex a t b); auto. }
  rewrite Hsub. pose proof (C34_eval x Hx) as (_ & _ & Hdef).
  destruct (itv_eqb (t_dom x) (bnd a b)) eqn:Ee.
  - apply itv_eqb_true in Ee. destruct Hc as [Hok|Hc]; [|congruence]. exists (t_cod x). split; auto.
    pose proof Hok as (_ & _ & _ & Hcod). apply (smallest_fill (is_val (t_map x))); auto.
    + intros v [k Hk]. exists k. split; [|rewrite at_sampled by auto; apply pl_key; auto].
      apply In_bnd. rewrite <- Ee. destruct Hd as (_ & A & _). apply A. red; eauto.
    + intros v (t & _ & Hv). rewrite at_sampled in Hv by auto. apply (pl_vals _ t); auto.
  - rewrite Hf. destruct (proj1 (Hdef a) Ha) as [va Ea]. destruct (proj1 (Hdef b) Hb) as [vb Eb]. rewrite Ea, Eb.
    eexists. split; [reflexivity|].
    set (f := filter (fun kv : R * R => Rleb a (fst kv) && Rleb (fst kv) b) (t_map x)).
    assert (Hf' : forall k v, List.In (k, v) f <-> List.In (k, v) (t_map x) /\ a <= k <= b).
    { intros k v. unfold f. rewrite filter_In. cbn. rewrite andb_true_iff, !Rleb_true. tauto. }
    apply (smallest_fill (fun v => ((False \/ v = va) \/ v = vb) \/ is_val f v)).
    + apply smallest_fold, smallest_add, smallest_add, smallest_none; auto.
    + intros v [[[[]| ->]| ->]|[k Hk]].
      * exists a. split; auto; lra.
      * exists b. split; auto; lra.
      * apply Hf' in Hk. exists k. split; [tauto|]. rewrite at_sampled by auto. apply pl_key; tauto.
    + intros v (t & Ht & Hv). rewrite at_sampled in Hv, Ea, Eb by auto.
      destruct (pl_between (t_map x) a t b va v vb Hs Ht Ea Hv Eb) as (p & q & Hp & Hq & L).
      exists p, q. split; [|split; auto].
      * destruct Hp as [->|[->|(k & Hk & Hi)]]; auto. right. exists k. apply Hf'. auto.
      * destruct Hq as [->|[->|(k & Hk & Hi)]]; auto. right. exists k. apply Hf'. auto.
Qed.

(** A trajectory built from the lists of times [0,1] and values [5,7]: its evaluation over its
    temporal domain is empty. *)
Theorem C34_refuted : exists lt lx x a b t v, x = traj_lists lt lx /\ t_dom x = bnd a b /\ a <= t <= b /\
  traj_at x t = Some v /\ exists i, traj_on x a b = Some i /\ ~ In v i.
Proof.
  exists [0; 1], [5; 7], (traj_lists [0; 1] [5; 7]), 0, 1, 0, 5. split; [auto|].
  unfold traj_lists. cbn. reval. unfold bnd, mk. reval. split; [auto|]. split; [lra|].
  unfold traj_at, map_at. cbn. reval. split; [auto|]. exists Emp. split; [|auto].
  unfold traj_on, bnd, mk. reval. cbn. reval. auto.
Qed.

(** the trajectory with the samples (0,1) (1,3) (3,-1) *)
Definition mE : smap := [(0, 1); (1, 3); (3, -1)].
Lemma mE_sorted : sorted mE.
Proof. repeat split; repeat (constructor; cbn; try lra). Qed.
Example C34_case : sampled (traj_map mE) /\ traj_ok (traj_map mE) /\ In (1/2) (t_dom (traj_map mE)) /\ In 2 (t_dom (traj_map mE)) /\
  traj_at (traj_map mE) 2 = Some 1.
Proof.
  assert (H : traj_ok (traj_map mE)) by (apply ok_map, mE_sorted).
  assert (H1 : forall t, 0 <= t <= 3 -> In t (t_dom (traj_map mE))) by (intros t Ht; cbn; apply In_bnd; auto).
  split; [apply ok_sampled; auto|]. split; auto. split; [apply H1; lra|]. split; [apply H1; lra|].
  rewrite traj_at_pl by auto. cbn [traj_map mE compute_codomain t_map]. rewrite (pl_seg mE [(0,1)] 1 3 3 (-1) [] 2 mE_sorted eq_refl) by lra.
  unfold lerp. cbn. f_equal. field.
Qed.

(** ** C35: the cached domain and codomain *)

Inductive top :=
| OSet (y t : R)                    (* set *)
| OTruncate (a b : R)               (* truncate_tdomain *)
| OShift (s : R)                    (* shift_tdomain *)
| OSample (dt : R)                  (* sample(dt) *)
| OSampleAs (y : traj)              (* sample(trajectory) *)
| OContinuous                       (* make_continuous *)
| OPrimitive (c : R)                (* primitive(c) *)
| OPrimitiveDt (c dt : R)           (* primitive(c,dt) *)
| ODiff                             (* diff() *)
| OUnary (f : R -> R)               (* functions of one trajectory, operators with a number *)
| OScalAdd (c : R) | OScalSub (c : R) | OScalMul (c : R)  (* assignment operators with a number *)
| OBinary (op : R -> R -> R) (y : traj)  (* operators with a trajectory *)
| OAssign (op : R -> R -> R) (y : traj). (* assignment operators with a trajectory *)

(** result of an operation; [None]: assertion failed *)
Definition texec (o : top) (x : traj) : option traj :=
  match o with
  | OSet y t => traj_set y t x
  | OTruncate a b => traj_truncate a b x
  | OShift s => Some (traj_shift s x)
  | OSample dt => traj_sample dt x
  | OSampleAs y => traj_sample_as y x
  | OContinuous => traj_continuous x
  | OPrimitive c => traj_primitive c x
  | OPrimitiveDt c dt => traj_primitive_dt c dt x
  | ODiff => traj_diff x
  | OUnary f => traj_unary f x
  | OScalAdd c => traj_assign_scal (fun v => v + c) (fun i => xadd i (pt c)) x
  | OScalSub c => traj_assign_scal (fun v => v - c) (fun i => xsub i (pt c)) x
  | OScalMul c => traj_assign_scal (fun v => v * c) (fun i => xmul i (pt c)) x
  | OBinary op y => traj_binary op x y
  | OAssign op y => traj_assign op y x
  end.
Fixpoint trun (l : list top) (x : traj) : option traj :=
  match l with
  | [] => Some x
  | o :: r => match texec o x with Some x' => trun r x' | None => None end
  end.

(** The other operand, when it is a sampled one, is itself up to date. *)
Definition operand_ok (o : top) : Prop :=
  match o with OBinary _ y | OAssign _ y => t_fun y = None -> traj_ok y | _ => True end.

(** *** binary operations *)
Lemma sample_keys_spec x : forall l m m', sorted m -> sample_keys x l m = Some m' ->
  sorted m' /\ (forall k, is_key m' k <-> is_key m k \/ List.In k l) /\
  (forall k v, List.In (k, v) m' -> List.In (k, v) m \/ traj_at x k = Some v).
Proof.
  induction l as [|t l IH]; intros m m' Hs H; cbn in H.
  - injection H as <-. split; auto. split; [cbn; tauto|auto].
  - unfold sample_key in H. destruct (lookup t m) as [v|] eqn:El.
    + destruct (IH m m' Hs H) as (A & B & C). split; auto. split; auto. intros k. rewrite B. cbn. split; [tauto|].
      intros [Hk|[<-|Hk]]; auto. left. exists v. apply lookup_in; auto.
    + destruct (traj_at x t) as [v|] eqn:Et; [|discriminate].
      destruct (IH _ m' (sorted_put _ t v Hs) H) as (A & B & C). split; auto. split.
      * intros k. rewrite B, is_key_put by auto. cbn. intuition congruence.
      * intros k w Hk. apply C in Hk. destruct Hk as [Hk|Hk]; auto. apply in_put in Hk; auto. destruct Hk as [[-> ->]|[_ Hk]]; auto.
Qed.
(** two maps with the same set of keys have the same list of keys *)
Lemma same_keys : forall m m', sorted m -> sorted m' -> (forall k, is_key m k <-> is_key m' k) -> map fst m = map fst m'.
Proof.
  induction m as [|[k v] r IH]; intros [|[k' v'] r'] Hs Hs' H; auto.
  - exfalso. destruct (proj2 (H k')) as [w []]. exists v'; left; auto.
  - exfalso. destruct (proj1 (H k)) as [w []]. exists v; left; auto.
  - assert (E : k = k').
    { destruct (proj1 (H k)) as [w [E|Hw]]; [exists v; left; auto|congruence|].
      destruct (proj2 (H k')) as [w' [E'|Hw']]; [exists v'; left; auto|congruence|].
      apply (sorted_head _ _ _ _ _ Hs') in Hw. apply (sorted_head _ _ _ _ _ Hs) in Hw'. lra. }
    subst k'. cbn. f_equal. apply IH; [apply (sorted_tail _ _ Hs)|apply (sorted_tail _ _ Hs')|].
    intros t. specialize (H t). unfold is_key in *. cbn in H. split.
    + intros [w Hw]. pose proof (sorted_head _ _ _ _ _ Hs Hw). destruct (proj1 H) as [w' [E|Hw']]; [eauto|injection E; intros; lra|eauto].
    + intros [w Hw]. pose proof (sorted_head _ _ _ _ _ Hs' Hw). destruct (proj2 H) as [w' [E|Hw']]; [eauto|injection E; intros; lra|eauto].
Qed.
Lemma sample_start_sorted x : (t_fun x = None -> sorted (t_map x)) -> sorted (sample_start x).
Proof. intros H. unfold sample_start. destruct (t_fun x); [exact I|auto]. Qed.
Lemma sample_as_spec y x x' : (t_fun x = None -> traj_ok x) -> traj_sample_as y x = Some x' ->
  t_fun y = None /\ t_dom x = t_dom y /\ t_fun x' = None /\ t_dom x' = t_dom x /\ sorted (t_map x') /\
  (forall k, is_key (t_map x') k <-> is_key (sample_start x) k \/ is_key (t_map y) k) /\
  (forall k v, List.In (k, v) (t_map x') -> traj_at x k = Some v).
Proof.
  intros Hx H. unfold traj_sample_as in H. destruct (t_fun y) eqn:Ey; [discriminate|].
  destruct (itv_eqb (t_dom x) (t_dom y)) eqn:Ed; [|discriminate]. apply itv_eqb_true in Ed.
  destruct (sample_keys _ _ _) as [m|] eqn:Em; [|discriminate]. injection H as <-. cbn [t_fun t_dom t_map].
  assert (Ss : sorted (sample_start x)) by (apply sample_start_sorted; intros E; apply (Hx E)).
  destruct (sample_keys_spec x _ _ _ Ss Em) as (A & B & C). do 5 (split; [auto|]). split.
  - intros k. rewrite B, (is_key_fst (t_map y)). tauto.
  - intros k v Hk. apply C in Hk. destruct Hk as [Hk|Hk]; auto. unfold sample_start in Hk. destruct (t_fun x) eqn:Ex; [destruct Hk|].
    rewrite traj_at_pl by auto. apply pl_key; auto. apply (Hx eq_refl).
Qed.
(** the operands of a binary operation, sampled on the same times *)
Definition op_keys (x y : traj) (k : R) : Prop := is_key (sample_start x) k \/ is_key (sample_start y) k.
Lemma sample_both_spec x1 x2 s1 s2 : (t_fun x1 = None -> traj_ok x1) -> (t_fun x2 = None -> traj_ok x2) -> t_dom x1 = t_dom x2 ->
  sample_both x1 x2 = Some (s1, s2) ->
  sorted (t_map s1) /\ map fst (t_map s1) = map fst (t_map s2) /\ (forall k, is_key (t_map s1) k <-> op_keys x1 x2 k) /\
  (forall k v, List.In (k, v) (t_map s1) -> traj_at x1 k = Some v) /\
  (forall k v, List.In (k, v) (t_map s2) -> traj_at x2 k = Some v) /\
  smallest (is_key (t_map s1)) (t_dom x1).
Proof.
  intros H1 H2 Hd H. unfold sample_both in H.
  destruct (t_fun x1) as [f1|] eqn:E1, (t_fun x2) as [f2|] eqn:E2; try discriminate.
  - (* x1 analytic, x2 sampled *)
    destruct (traj_sample_as x2 x1) as [s|] eqn:Es; [|discriminate]. injection H as <- <-.
    destruct (sample_as_spec x2 x1 s) as (_ & _ & F & D & S & K & V); [intros; congruence|auto|].
    pose proof (H2 eq_refl) as (_ & S2 & D2 & _).
    assert (K' : forall k, is_key (t_map s) k <-> is_key (t_map x2) k).
    { intros k. rewrite K. unfold sample_start. rewrite E1. unfold is_key. cbn. split; [intros [[v []]|Hk]; auto|auto]. }
    split; auto. split; [apply same_keys; auto|]. split.
    { intros k. rewrite K'. unfold op_keys, sample_start. rewrite E1, E2. unfold is_key. cbn. split; auto. intros [[v []]|Hk]; auto. }
    split; auto. split.
    + intros k v Hk. rewrite traj_at_pl by (apply H2; auto). apply pl_key; auto.
    + rewrite Hd. apply (smallest_ext (is_key (t_map x2))); auto. intros; symmetry; auto.
  - (* x1 sampled, x2 analytic *)
    destruct (traj_sample_as x1 x2) as [s|] eqn:Es; [|discriminate]. injection H as <- <-.
    destruct (sample_as_spec x1 x2 s) as (_ & _ & F & D & S & K & V); [intros; congruence|auto|].
    pose proof (H1 eq_refl) as (_ & S1 & D1 & _).
    assert (K' : forall k, is_key (t_map s) k <-> is_key (t_map x1) k).
    { intros k. rewrite K. unfold sample_start. rewrite E2. unfold is_key. cbn. split; [intros [[v []]|Hk]; auto|auto]. }
    split; auto. split; [apply same_keys; auto; intros; symmetry; auto|]. split.
    { intros k. unfold op_keys, sample_start. rewrite E1, E2. unfold is_key. cbn. split; auto. intros [Hk|[v []]]; auto. }
    split; [|split; auto].
    intros k v Hk. rewrite traj_at_pl by (apply H1; auto). apply pl_key; auto.
  - destruct (traj_sample_as x2 x1) as [a|] eqn:Ea; [|discriminate]. destruct (traj_sample_as x1 x2) as [c|] eqn:Ec; [|discriminate]. injection H as <- <-.
    pose proof (ok_sample_as _ _ _ (H1 eq_refl) Ea) as Ha.
    assert (G1 : t_fun x1 = None -> traj_ok x1) by auto. assert (G2 : t_fun x2 = None -> traj_ok x2) by auto.
    destruct (sample_as_spec _ _ _ G1 Ea) as (_ & _ & Fa & Da & Sa & Ka & Va).
    destruct (sample_as_spec _ _ _ G2 Ec) as (_ & _ & Fc & Dc & Sc & Kc & Vc).
    assert (T1 : sample_start x1 = t_map x1) by (unfold sample_start; rewrite E1; auto).
    assert (T2 : sample_start x2 = t_map x2) by (unfold sample_start; rewrite E2; auto).
    rewrite T1 in Ka. rewrite T2 in Kc. split; auto. split.
    { apply same_keys; auto. intros k. rewrite Ka, Kc. tauto. }
    split; [intros k; unfold op_keys; rewrite Ka, T1, T2; tauto|]. split; auto. split; auto. rewrite <- Da. apply Ha.
Qed.
Lemma zip_spec op : forall m1 m2, map fst m1 = map fst m2 -> exists l, zip_loop op m1 m2 = Some l /\ map fst l = map fst m1 /\
  forall k u, List.In (k, u) l -> exists v w, List.In (k, v) m1 /\ List.In (k, w) m2 /\ u = op v w.
Proof.
  induction m1 as [|[k v] r IH]; intros [|[k' w] r'] E; try discriminate; cbn [zip_loop].
  - exists []. repeat split; auto. intros ? ? [].
  - cbn in E. injection E as <- E. destruct (IH r' E) as (l & -> & El & H). exists ((k, op v w) :: l). split; auto. split; [cbn; congruence|].
    intros k0 u [E0|H0]; [injection E0 as <- <-; exists v, w; repeat split; left; auto|].
    destruct (H _ _ H0) as (a & b & Ha & Hb & ->). exists a, b. repeat split; right; auto.
Qed.
Lemma ok_binary op x y z : traj_ok x -> (t_fun y = None -> traj_ok y) -> traj_binary op x y = Some z -> traj_ok z.
Proof.
  intros Hx Hy H. unfold traj_binary in H. destruct (itv_eqb (t_dom x) (t_dom y)) eqn:Ed; [|discriminate]. apply itv_eqb_true in Ed.
  destruct (sample_both x y) as [[s1 s2]|] eqn:Es; [|discriminate].
  destruct (sample_both_spec x y s1 s2 (fun _ => Hx) Hy Ed Es) as (S & K & _).
  destruct (zip_spec op _ _ K) as (l & El & Kl & _). rewrite El in H. injection H as <-. apply ok_map. apply (sorted_keys (t_map s1)); auto.
Qed.
Lemma assign_spec op y x z : traj_ok x -> (t_fun y = None -> traj_ok y) -> traj_assign op y x = Some z ->
  t_dom x = t_dom y /\ traj_ok z /\ t_dom z = t_dom x /\ (forall k, is_key (t_map z) k <-> op_keys x y k) /\
  (forall k u, List.In (k, u) (t_map z) -> exists v w, traj_at x k = Some v /\ traj_at y k = Some w /\ u = op v w).
Proof.
  intros Hx Hy H. pose proof Hx as (Hf & Hs & Hd & Hc). unfold traj_assign in H. destruct (itv_eqb (t_dom x) (t_dom y)) eqn:Ed; [|discriminate].
  apply itv_eqb_true in Ed. rewrite Hf in H. destruct (traj_sample_as x y) as [ys|] eqn:Es; [|discriminate].
  destruct (assign_loop op x (t_map ys)) as [l|] eqn:El; [|discriminate]. injection H as <-.
  destruct (sample_as_spec _ _ _ Hy Es) as (_ & _ & F & D & S & K & V). pose proof (assign_keys _ _ _ _ El) as Ek.
  assert (Kx : forall k, is_key l k <-> op_keys x y k).
  { intros k. rewrite is_key_fst, Ek, <- is_key_fst, K. unfold op_keys. assert (sample_start x = t_map x) as -> by (unfold sample_start; rewrite Hf; auto). tauto. }
  split; auto. split.
  - apply ok_compute; [apply (sorted_keys (t_map ys)); auto|]. destruct Hd as (W & A & B). split; auto. split.
    + intros k Hk. apply Kx in Hk. destruct Hk as [Hk|Hk]; [apply A; unfold sample_start in Hk; rewrite Hf in Hk; auto|].
      unfold sample_start in Hk. destruct (t_fun y) eqn:Ey; [destruct Hk as [v []]|]. rewrite Ed. destruct (Hy eq_refl) as (_ & _ & (_ & Ay & _) & _). apply Ay. auto.
    + intros j Hj. apply B. intros k Hk. apply Hj, Kx. left. unfold sample_start. rewrite Hf. auto.
  - split; auto. split; auto. intros k u Hk. cbn [t_map compute_codomain] in Hk.
    assert (G : forall m l, assign_loop op x m = Some l -> List.In (k, u) l -> exists v w, traj_at x k = Some v /\ List.In (k, w) m /\ u = op v w).
    { clear. induction m as [|[k0 v0] r IH]; intros l H Hi; cbn in H; [injection H as <-; destruct Hi|].
      destruct (traj_at x k0) as [v|] eqn:Ev; [|discriminate]. destruct (assign_loop op x r) as [l'|] eqn:El; [|discriminate]. injection H as <-.
      destruct Hi as [E|Hi]; [injection E as <- <-; exists v, v0; repeat split; auto; left; auto|].
      destruct (IH l' eq_refl Hi) as (a & b & Ha & Hb & ->). exists a, b. repeat split; auto. right; auto. }
    destruct (G _ _ El Hk) as (v & w & Hv & Hw & ->). exists v, w. repeat split; auto.
Qed.

(** the hull of finitely many values has its bounds among them *)
Lemma vals_bounds : forall m, m <> [] -> exists lo hi, is_val m lo /\ is_val m hi /\ forall v, is_val m v -> lo <= v <= hi.
Proof.
  induction m as [|[k v] r IH]; intros H; [congruence|]. destruct r as [|p r].
  - exists v, v. repeat split; try (exists k; left; auto); destruct H0 as [t [E|[]]]; injection E; intros; lra.
  - destruct IH as (lo & hi & [tl Hl] & [th Hh] & L); [discriminate|].
    assert (G : forall w, is_val ((k, v) :: p :: r) w -> w = v \/ lo <= w <= hi).
    { intros w [t [E|Ht]]; [injection E; auto|]. right. apply L. exists t; auto. }
    exists (Rmin v lo), (Rmax v hi). split; [|split].
    + unfold Rmin. destruct (Rle_dec v lo); [exists k; left; auto|exists tl; right; auto].
    + unfold Rmax. destruct (Rle_dec v hi); [exists th; right; auto|exists k; left; auto].
    + intros w Hw. pose proof (Rmin_l v lo). pose proof (Rmin_r v lo). pose proof (Rmax_l v hi). pose proof (Rmax_r v hi).
      destruct (G w Hw); [subst; lra|lra].
Qed.
Lemma ok_scal f F x x' : F Emp = Emp ->
  (forall a b, a <= b -> F (Itv (Some a) (Some b)) = Itv (Some (Rmin (f a) (f b))) (Some (Rmax (f a) (f b)))) ->
  (forall a v b, a <= v <= b -> Rmin (f a) (f b) <= f v <= Rmax (f a) (f b)) ->
  traj_ok x -> traj_assign_scal f F x = Some x' -> traj_ok x'.
Proof.
  intros F0 F1 F2 Hx H. pose proof Hx as (Hf & Hs & Hd & Hc). unfold traj_assign_scal in H. rewrite Hf in H. injection H as <-.
  pose proof (ok_same_keys x (map_vals f (t_map x)) Hx (eq_sym (map_vals_keys f (t_map x)))) as G.
  assert (E : F (t_cod x) = cod_of_map (map_vals f (t_map x))); [|rewrite E; auto].
  destruct (t_map x) as [|p r] eqn:Em.
  - assert (t_cod x = Emp) as ->; [|rewrite F0; auto].
    apply (smallest_uniq (is_val [])); auto. apply smallest_none. intros v [t []].
  - destruct (vals_bounds (p :: r)) as (lo & hi & Hl & Hh & L); [discriminate|].
    assert (lo <= hi) by (apply L; auto).
    assert (Ec : t_cod x = Itv (Some lo) (Some hi)).
    { apply (smallest_uniq (is_val (p :: r))); auto. split; [auto|]. split; [intros v Hv; cbn; apply L; auto|].
      intros j Hj v Hv. cbn in Hv. apply (In_convex lo v hi); auto. }
    rewrite Ec, F1 by auto. apply (smallest_uniq (is_val (map_vals f (p :: r)))); [|apply smallest_cod].
    assert (Hv : forall w, is_val (map_vals f (p :: r)) w <-> exists v, is_val (p :: r) v /\ w = f v).
    { intros w. unfold is_val, map_vals. split.
      - intros [t Ht]. apply in_map_iff in Ht. destruct Ht as ([k v] & E & Hk). injection E as <- <-. exists v. split; [exists k; auto|auto].
      - intros (v & [t Ht] & ->). exists t. apply in_map_iff. exists (t, v). auto. }
    split; [cbn; unfold Rmin, Rmax; destruct (Rle_dec (f lo) (f hi)); lra|]. split.
    + intros w Hw. apply Hv in Hw. destruct Hw as (v & Hv' & ->). cbn. apply F2, L; auto.
    + intros j Hj w Hw. cbn in Hw.
      assert (In (f lo) j) by (apply Hj, Hv; eauto). assert (In (f hi) j) by (apply Hj, Hv; eauto).
      apply (In_convex (Rmin (f lo) (f hi)) w (Rmax (f lo) (f hi))); auto; unfold Rmin, Rmax; destruct (Rle_dec (f lo) (f hi)); auto.
Qed.

Lemma ok_exec o x x' : operand_ok o -> traj_ok x -> texec o x = Some x' -> traj_ok x'.
Proof.
  intros Ho Hx H. destruct o; cbn in H, Ho.
  - apply (ok_set _ _ _ _ Hx H).
  - apply (ok_truncate _ _ _ _ Hx H).
  - injection H as <-. apply ok_shift; auto.
  - apply (ok_sample _ _ _ Hx H).
  - apply (ok_sample_as _ _ _ Hx H).
  - apply (ok_continuous _ _ Hx H).
  - apply (ok_primitive _ _ _ H).
  - apply (ok_primitive_dt _ _ _ _ H).
  - apply (ok_diff _ _ H).
  - apply (ok_unary _ _ _ Hx H).
  - revert H. apply ok_scal; auto; intros; cbn; unfold Rmin, Rmax; try rewrite !Rplus_0_r; destruct (Rle_dec (a + c) (b + c)); repeat f_equal; try lra.
  - revert H. apply ok_scal; auto; intros; cbn; unfold Rmin, Rmax; destruct (Rle_dec (a - c) (b - c)); repeat f_equal; try lra.
  - revert H. apply ok_scal; auto.
    + intros a b Hab. cbn. unfold min4, max4. f_equal; f_equal.
      * rewrite (Rmin_left (a * c) (a * c)), (Rmin_left (b * c) (b * c)) by lra. auto.
      * rewrite (Rmax_left (a * c) (a * c)), (Rmax_left (b * c) (b * c)) by lra. auto.
    + intros a v b Hv. unfold Rmin, Rmax. destruct (Rle_dec 0 c), (Rle_dec (a * c) (b * c)); nra.
  - apply (ok_binary _ _ _ _ Hx Ho H).
  - apply (assign_spec _ _ _ _ Hx Ho H).
Qed.

(** For each trajectory built from a map (possibly empty) and each sequence of operations that does not
    violate an assertion: codomain() is the smallest interval that contains the values of the
    trajectory, tdomain() the smallest one that contains its sample times; and the sample times are
    still increasing. *)
Theorem C35_partial m l x : sorted m -> Forall operand_ok l -> trun l (traj_map m) = Some x ->
  sorted (t_map x) /\ smallest (taken x (fun _ => True)) (t_cod x) /\ smallest (is_key (t_map x)) (t_dom x).
Proof.
  intros Hm Hl H. assert (Hx : traj_ok x).
  { revert H. generalize (ok_map m Hm). generalize (traj_map m). induction Hl as [|o l Ho Hl IH]; intros y Hy H; cbn in H; [congruence|].
    destruct (texec o y) as [y'|] eqn:E; [|discriminate]. apply (IH y'); auto. apply (ok_exec o y); auto. }
  pose proof Hx as (Hf & Hs & Hd & Hc). split; auto. split; auto. apply (smallest_fill (is_val (t_map x))); auto.
  - intros v [t Ht]. exists t. split; auto. rewrite traj_at_pl by auto. apply pl_key; auto.
  - intros v (t & _ & Hv). rewrite traj_at_pl in Hv by auto. apply (pl_vals _ t); auto.
Qed.

(** Built from lists, the codomain is empty, and it stays wrong after set(): samples (0,5) (1,7), then
    set(6,2): the codomain is [6,6]. *)
Theorem C35_refuted : exists lt lx y t x v, traj_set y t (traj_lists lt lx) = Some x /\ sorted (t_map x) /\
  taken x (fun _ => True) v /\ ~ In v (t_cod x).
Proof.
  exists [0; 1], [5; 7], 6, 2.
  assert (E : traj_lists [0; 1] [5; 7] = mkT (Itv (Some 0) (Some 1)) Emp None [(0, 5); (1, 7)]).
  { unfold traj_lists. cbn. reval. auto. }
  rewrite E. unfold traj_set. cbn. reval. eexists. exists 5. split; [reflexivity|]. cbn. split; [repeat split; repeat (constructor; cbn; try lra)|].
  split; [|lra]. exists 0. split; auto. unfold traj_at, map_at. cbn. reval. auto.
Qed.

(** a history meets the hypotheses: set a new sample, shift, truncate, sample, and take the primitive *)
Example C35_case : sorted mE /\ exists x, trun [OSet 4 1; OShift 1; OTruncate (3/2) 3; OSampleAs (traj_map [(3/2,0);(2,0);(5/2,0);(3,0)]); OContinuous; OPrimitive 2; OUnary Ropp] (traj_map mE) = Some x /\
  exists v, traj_at x (3/2) = Some v.
Proof.
  split; [apply mE_sorted|]. pose proof mE_sorted as Sm.
  set (x0 := traj_map mE). assert (H0 : traj_ok x0) by (apply ok_map; auto).
  cbn [trun texec]. destruct (set_def 4 1 x0 H0) as [x1 E1]. rewrite E1. pose proof (ok_set _ _ _ _ H0 E1) as H1.
  assert (M1 : t_map x1 = [(0,1);(1,4);(3,-1)]). { rewrite (set_map _ _ _ _ E1). unfold x0, mE. cbn. reval. auto. }
  set (x2 := traj_shift 1 x1). assert (H2 : traj_ok x2) by (apply ok_shift; auto).
  assert (M2 : t_map x2 = [(1,1);(2,4);(4,-1)]).
  { unfold x2. rewrite shift_map by apply H1. rewrite M1. cbn. repeat f_equal; lra. }
  assert (D : forall t, 1 <= t <= 4 -> In t (t_dom x2)).
  { intros t Ht. destruct H2 as (_ & _ & (_ & A & _) & _). rewrite M2 in A. apply (In_convex 1 t 4); auto; apply A; [exists 1|exists (-1)]; cbn; auto. }
  assert (Hsup : is_superset (t_dom x2) (bnd (3/2) 3) = true).
  { apply sub_is_subset; [apply wf_mk|]. intros t Ht. apply In_bnd in Ht. apply D. lra. }
  pose proof H2 as (F2 & S2 & D2 & C2). assert (Sm2 : sorted [(1,1);(2,4);(4,-1)]) by (rewrite <- M2; auto).
  assert (E3 : exists x3, traj_truncate (3/2) 3 x2 = Some x3 /\ t_dom x3 = inter (t_dom x2) (bnd (3/2) 3)).
  { unfold traj_truncate. rewrite Hsup, (Rltb_t (3/2) 3) by lra. cbn [andb]. rewrite F2, !traj_at_pl by auto. rewrite M2.
    rewrite (pl_seg _ [] 1 1 2 4 [(4,-1)] (3/2) Sm2 eq_refl) by lra. rewrite (pl_seg _ [(1,1)] 2 4 4 (-1) [] 3 Sm2 eq_refl) by lra.
    eexists. split; reflexivity. }
  destruct E3 as (x3 & E3 & D3'). fold x2. rewrite E3.
  pose proof (ok_truncate _ _ _ _ H2 E3) as H3.
  set (y := traj_map _). assert (Hy : traj_ok y) by (apply ok_map; repeat split; repeat (constructor; cbn; try lra)).
  assert (Dy : t_dom y = bnd (3/2) 3) by reflexivity.
  assert (D3 : t_dom x3 = t_dom y).
  { rewrite D3', Dy, inter_comm. apply inter_sub_eq; [apply wf_mk|]. apply is_subset_sub; auto. }
  assert (G : forall l m, (forall k, List.In k l -> In k (t_dom x3)) -> exists m', sample_keys x3 l m = Some m').
  { induction l as [|k l IH]; intros m Hk; cbn; [eauto|]. unfold sample_key. destruct (lookup k m); [apply IH; intros; apply Hk; right; auto|].
    rewrite traj_at_pl by auto. destruct (proj1 (dom_contains x3 k H3)) as [v ->]; [apply Hk; left; auto|]. apply IH; intros; apply Hk; right; auto. }
  destruct (G (map fst (t_map y)) (sample_start x3)) as [m4 E4].
  { intros k Hk. apply is_key_fst in Hk. rewrite D3. destruct Hy as (_ & _ & (_ & Ay & _) & _). apply Ay; auto. }
  assert (E4' : traj_sample_as y x3 = Some (mkT (t_dom x3) (t_cod x3) None m4)).
  { unfold traj_sample_as. rewrite D3, itv_eqb_refl. change (t_fun y) with (@None tfun). rewrite E4. auto. }
  rewrite E4'. pose proof (ok_sample_as _ _ _ H3 E4') as H4. cbn [traj_continuous t_fun].
  set (x5 := mkT _ _ None _).
  assert (H5 : traj_ok x5) by (apply (ok_continuous (mkT (t_dom x3) (t_cod x3) None m4)); auto).
  destruct (primitive_def 2 x5 H5) as (x6 & E6 & M6 & H6). rewrite E6. pose proof H6 as (F6 & S6 & D6 & C6).
  unfold traj_unary. rewrite F6. eexists. split; [reflexivity|].
  assert (H7 : traj_ok (traj_map (map_vals Ropp (t_map x6)))).
  { apply ok_map. apply (sorted_keys (t_map x6)); auto. symmetry. apply map_vals_keys. }
  rewrite traj_at_pl by auto. apply dom_contains; auto. destruct H7 as (_ & _ & (_ & A7 & _) & _). apply A7.
  assert (K : forall m, sorted m -> t_map (traj_map m) = m) by (intros [|[? ?] ?]; auto). rewrite K by (apply (sorted_keys (t_map x6)); auto; symmetry; apply map_vals_keys).
  rewrite is_key_fst, map_vals_keys, M6, prim_keys. unfold x5. cbn [t_map]. rewrite continuous_keys.
  rewrite <- is_key_fst. destruct (sample_keys_spec x3 _ _ _ (sample_start_sorted x3 (fun _ => proj1 (proj2 H3))) E4) as (_ & K' & _). apply K'. right. left. auto.
Qed.

(** ** C36: equality *)

(** reflexive, transitive, and != is the negation of ==, on sampled trajectories *)
Theorem C36_partial :
  (forall x, t_fun x = None -> sorted (t_map x) -> traj_eqb x x = Some true) /\
  (forall x y z, traj_eqb x y = Some true -> traj_eqb y z = Some true -> traj_eqb x z = Some true) /\
  (forall x y, t_fun x = None -> t_fun y = None -> exists e, traj_eqb x y = Some e /\ traj_neqb x y = Some (negb e)) /\
  (forall x y, sorted (t_map x) -> sorted (t_map y) -> length (t_map x) = length (t_map y) ->
     (traj_eqb x y = Some true <-> x = y /\ t_fun x = None)).
Proof.
  assert (Hsub : forall m m', map_sub m m' = true <-> forall k v, List.In (k, v) m -> lookup k m' = Some v).
  { intros m m'. unfold map_sub. rewrite forallb_forall. split.
    - intros H k v Hk. specialize (H _ Hk). cbn in H. destruct (lookup k m'); [|discriminate]. apply Reqb_true in H. congruence.
    - intros H [k v] Hk. cbn. rewrite (H _ _ Hk). apply Reqb_refl. }
  assert (Hsh : forall x y, traj_eqb x y = Some true <-> t_fun x = None /\ t_fun y = None /\ t_dom x = t_dom y /\ t_cod x = t_cod y /\ map_sub (t_map x) (t_map y) = true).
  { intros x y. unfold traj_eqb. destruct (t_fun x), (t_fun y); try (split; [discriminate|intros (? & ? & _); discriminate]).
    destruct (itv_eqb (t_dom x) (t_dom y)) eqn:E1; cbn [negb orb].
    - apply itv_eqb_true in E1. destruct (itv_eqb (t_cod x) (t_cod y)) eqn:E2; cbn [negb].
      + apply itv_eqb_true in E2. split; [intros H; injection H; auto 6|intros (_ & _ & _ & _ & ->); auto].
      + apply itv_eqb_false in E2. split; [discriminate|tauto].
    - apply itv_eqb_false in E1. split; [discriminate|tauto]. }
  split; [|split; [|split]].
  - intros x Hf Hs. apply Hsh. repeat split; auto. apply Hsub. intros; apply in_lookup; auto.
  - intros x y z H1 H2. apply Hsh in H1, H2. apply Hsh. destruct H1 as (A1 & B1 & C1 & D1 & E1), H2 as (A2 & B2 & C2 & D2 & E2).
    repeat split; auto; try congruence. apply Hsub. intros k v Hk. rewrite Hsub in E1, E2. apply E2. apply lookup_in. auto.
  - intros x y Hx Hy. unfold traj_neqb, traj_eqb. rewrite Hx, Hy. eexists. split; [reflexivity|].
    destruct (itv_eqb (t_dom x) (t_dom y)), (itv_eqb (t_cod x) (t_cod y)); auto.
  - intros x y Sx Sy Hl. rewrite Hsh. split.
    + intros (A & B & C & D & E). split; auto. destruct x as [d c f m], y as [d' c' f' m']. cbn [t_fun t_dom t_cod t_map] in *. subst. f_equal.
      pose proof (proj1 (Hsub _ _) E) as E'. clear E. rename E' into E. revert m' Sy Hl E. clear - Sx. induction m as [|[k v] r IH]; intros [|[k' v'] r'] Sy Hl E; try discriminate; auto.
      cbn in Hl. injection Hl as Hl.
      (* the keys of m are among the keys of m', and they are as many: the first keys agree *)
      assert (Hin : forall a va, List.In (a, va) ((k, v) :: r) -> List.In (a, va) ((k', v') :: r')) by (intros; apply lookup_in, E; auto).
      assert (Ek : k = k').
      { destruct (Hin k v (or_introl eq_refl)) as [E'|H']; [congruence|]. exfalso.
        assert (Hn : (length ((k, v) :: r) <= length r')%nat).
        { apply NoDup_incl_length.
          - clear - Sx. revert Sx. generalize ((k, v) :: r). induction l as [|[a va] l IH]; intros S; constructor.
            + intros H. apply (sorted_head _ _ _ _ _ S) in H. lra.
            + apply IH, (sorted_tail _ _ S).
          - intros [a va] Ha. destruct (Hin a va Ha) as [E'|H'']; auto. injection E' as <- <-. exfalso.
            pose proof (sorted_head _ _ _ _ _ Sy H'). destruct Ha as [Ha|Ha]; [injection Ha; intros; lra|apply (sorted_head _ _ _ _ _ Sx) in Ha; lra]. }
        cbn in Hn. lia. }
      subst k'. assert (v = v') by (destruct (Hin k v (or_introl eq_refl)) as [E'|H']; [congruence|apply (sorted_head _ _ _ _ _ Sy) in H'; lra]).
      subst v'. f_equal. apply IH; auto; [apply (sorted_tail _ _ Sx)|apply (sorted_tail _ _ Sy)|].
      intros a va Ha. apply in_lookup; [apply (sorted_tail _ _ Sy)|]. destruct (Hin a va (or_intror Ha)) as [E'|H']; auto.
      injection E' as <- <-. apply (sorted_head _ _ _ _ _ Sx) in Ha. lra.
    + intros [<- Hf]. repeat split; auto. apply Hsub. intros; apply in_lookup; auto.
Qed.

(** not symmetric: {0:0, 2:2} == {0:0, 1:0, 2:2} holds and the converse does not, while the two
    trajectories differ at time 1 *)
Theorem C36_refuted : exists x y, traj_ok x /\ traj_ok y /\ traj_eqb x y = Some true /\ traj_eqb y x = Some false /\
  traj_at x 1 <> traj_at y 1.
Proof.
  exists (traj_map [(0, 0); (2, 2)]), (traj_map [(0, 0); (1, 0); (2, 2)]).
  assert (Sx : sorted [(0, 0); (2, 2)]) by (repeat split; repeat (constructor; cbn; try lra)).
  assert (Sy : sorted [(0, 0); (1, 0); (2, 2)]) by (repeat split; repeat (constructor; cbn; try lra)).
  split; [apply ok_map; auto|]. split; [apply ok_map; auto|].
  assert (Ex : traj_map [(0, 0); (2, 2)] = mkT (I2 0 2) (I2 0 2) None [(0, 0); (2, 2)]).
  { unfold traj_map, compute_codomain, cod_of_map, bnd, mk. cbn. reval. auto. }
  assert (Ey : traj_map [(0, 0); (1, 0); (2, 2)] = mkT (I2 0 2) (I2 0 2) None [(0, 0); (1, 0); (2, 2)]).
  { unfold traj_map, compute_codomain, cod_of_map, bnd, mk. cbn. reval. auto. }
  rewrite Ex, Ey. unfold traj_eqb, map_sub. cbn. reval. split; auto. split; auto.
  unfold traj_at, map_at, lerp. cbn. reval. intros H. injection H. lra.
Qed.
Example C36_case : let x := traj_map mE in sorted (t_map x) /\ t_fun x = None /\ traj_eqb x (traj_map mE) = Some true.
Proof.
  assert (traj_ok (traj_map mE)) as (Hf & Hs & _) by (apply ok_map, mE_sorted). repeat split; auto; try apply Hs.
  apply (proj1 C36_partial); auto.
Qed.

(** ** C61: resampling, truncating and shifting keep the values *)

(** adding samples taken on the interpolation does not change it *)
Lemma pl_refines x m t : traj_ok x -> refines x m -> pl m t = pl (t_map x) t.
Proof.
  intros Hx Hm. pose proof Hm as (Sm & Hi & Hp). pose proof Hx as (Hf & Hs & _).
  destruct (pl m t) as [v|] eqn:E.
  - symmetry. destruct (pl_split _ _ _ Sm E) as [Hin|(l & k1 & v1 & k2 & v2 & r & Em & Hk & Ev)]; [apply Hp; auto|].
    assert (H1 : pl (t_map x) k1 = Some v1) by (apply Hp; rewrite Em; apply in_or_app; right; left; auto).
    assert (H2 : pl (t_map x) k2 = Some v2) by (apply Hp; rewrite Em; apply in_or_app; right; right; left; auto).
    assert (Hd : exists w, pl (t_map x) t = Some w).
    { rewrite pl_def by auto. pose proof (proj1 (pl_def _ k1 Hs) (ex_intro _ _ H1)) as (a & b & Ha & Hb & L1).
      pose proof (proj1 (pl_def _ k2 Hs) (ex_intro _ _ H2)) as (c & d & Hc & Hd & L2). exists a, d. split; auto. split; auto. lra. }
    destruct Hd as [w Hw]. rewrite Hw. f_equal.
    (* no sample of x strictly between k1 and k2 *)
    assert (Hno : forall k u, List.In (k, u) (t_map x) -> ~ (k1 < k < k2)).
    { intros k u Hk' Hb. apply Hi in Hk'. rewrite Em in Hk', Sm. revert Hk' Hb. clear - Sm. induction l as [|p l IH]; cbn [app] in *; intros [E|H] Hb.
      - injection E; intros; lra.
      - destruct H as [E|H]; [injection E; intros; lra|]. apply (sorted_head _ _ _ _ _ (sorted_tail _ _ Sm)) in H. lra.
      - subst p. assert (k < k1) by (apply (sorted_head _ _ _ k1 v1 Sm), in_or_app; right; left; auto). lra.
      - apply IH; auto. apply (sorted_tail _ _ Sm). }
    destruct (pl_split _ _ _ Hs Hw) as [Hin|(l' & a & va & b & vb & r' & Em' & Hab & Ew)].
    { exfalso. apply (Hno t w Hin). lra. }
    assert (Ha : a <= k1) by (destruct (Rle_dec a k1); auto; exfalso; apply (Hno a va); [rewrite Em'; apply in_or_app; right; left; auto|lra]).
    assert (Hb : k2 <= b) by (destruct (Rle_dec k2 b); auto; exfalso; apply (Hno b vb); [rewrite Em'; apply in_or_app; right; right; left; auto|lra]).
    rewrite (pl_seg _ l' a va b vb r' k1 Hs Em') in H1 by lra. rewrite (pl_seg _ l' a va b vb r' k2 Hs Em') in H2 by lra.
    injection H1 as H1. injection H2 as H2. rewrite Ew, Ev, <- H1, <- H2. unfold lerp. cbn [fst snd]. field. lra.
  - symmetry. destruct (pl (t_map x) t) as [w|] eqn:Ew; auto. exfalso.
    pose proof (proj1 (pl_def _ t Hs) (ex_intro _ _ Ew)) as (a & b & [va Ha] & [vb Hb] & L).
    destruct (proj2 (pl_def m t Sm)) as [u Hu]; [|congruence]. exists a, b. split; [exists va; auto|]. split; [exists vb; auto|auto].
Qed.

Lemma sample_loop_grid x b dt : forall n t m m', sample_loop n x t b dt m = Some m' -> sorted m ->
  sorted m' /\ (forall k, is_key m k -> is_key m' k) /\
  (forall i, (i < n)%nat -> t + INR i * dt < b -> (0 < dt) -> is_key m' (t + INR i * dt)).
Proof.
  induction n as [|n IH]; intros t m m' H Hs; cbn [sample_loop] in H; [injection H as <-; repeat split; auto; intros; lia|].
  destruct (Rltb t b) eqn:Et.
  - destruct (sample_key x t m) as [m1|] eqn:Ek; [|discriminate].
    assert (H1 : sorted m1 /\ (forall k, is_key m k -> is_key m1 k) /\ is_key m1 t).
    { unfold sample_key in Ek. destruct (lookup t m) as [w|] eqn:El; [injection Ek as <-; repeat split; auto; exists w; apply lookup_in; auto|].
      destruct (traj_at x t) as [w|]; [|discriminate]. injection Ek as <-. split; [apply sorted_put; auto|]. split; [intros k Hk; apply is_key_put; auto|apply is_key_put; auto]. }
    destruct H1 as (S1 & K1 & T1). destruct (IH _ _ _ H S1) as (A & B & C). split; auto. split; auto.
    intros i Hi Hb Hdt. destruct i as [|i].
    + cbn [INR]. replace (t + 0 * dt) with t by ring. auto.
    + rewrite S_INR in *. replace (t + (INR i + 1) * dt) with (t + dt + INR i * dt) in * by ring. apply C; auto. lia.
  - injection H as <-. split; auto. split; auto. intros i Hi Hb Hdt. apply Rltb_false in Et. pose proof (pos_INR i). nra.
Qed.

(** sample(dt), sample(trajectory), truncate_tdomain and shift_tdomain *)
Theorem C61_values x : traj_ok x ->
  (forall dt x', traj_sample dt x = Some x' -> (forall t, traj_at x' t = traj_at x t) /\
     (forall a b i, t_dom x = Itv (Some a) (Some b) -> a + INR i * dt < b -> is_key (t_map x') (a + INR i * dt))) /\
  (forall y x', traj_sample_as y x = Some x' -> (forall t, traj_at x' t = traj_at x t) /\
     forall k, is_key (t_map y) k -> is_key (t_map x') k) /\
  (forall a b x', traj_truncate a b x = Some x' -> t_dom x' = bnd a b /\ forall t, a <= t <= b -> traj_at x' t = traj_at x t) /\
  (forall s t, traj_at (traj_shift s x) (t + s) = traj_at x t).
Proof.
  intros Hx. pose proof Hx as (Hf & Hs & Hd & Hc). split; [|split; [|split]].
  - intros dt x' H. destruct (sample_refines _ _ _ Hx H) as (m & -> & Hm). split.
    + intros t. rewrite !traj_at_pl; auto using refines_ok. apply pl_refines; auto.
    + intros a b i Ed Hb. unfold traj_sample in H. rewrite Ed in H. destruct (Rltb 0 dt) eqn:Edt; [|discriminate]. apply Rltb_true in Edt.
      destruct (sample_loop _ x a b dt (sample_start x)) as [m'|] eqn:El; [|discriminate]. destruct (traj_at x b); [|discriminate].
      injection H as <-. unfold sample_start in El. rewrite Hf in El. destruct (sample_loop_grid x b dt _ _ _ _ El Hs) as (S' & _ & G).
      apply is_key_put; auto. left. apply G; auto.
      assert (Hi : INR i < (b - a) / dt).
      { apply Rmult_lt_reg_r with dt; auto. unfold Rdiv. rewrite Rmult_assoc, Rinv_l by lra. lra. }
      destruct (archimed ((b - a) / dt)) as [Hu _]. assert (Hz : (Z.of_nat i < up ((b - a) / dt))%Z) by (apply lt_IZR; rewrite <- INR_IZR_INZ; lra). lia.
  - intros y x' H. destruct (sample_as_refines _ _ _ Hx H) as (m & E & Hm). split.
    + intros t. rewrite E. rewrite !traj_at_pl; auto using refines_ok. apply pl_refines; auto.
    + intros k Hk. destruct (sample_as_spec _ _ _ (fun _ => Hx) H) as (_ & _ & _ & _ & _ & K & _). apply K. auto.
  - intros a b x' H. pose proof (ok_truncate _ _ _ _ Hx H) as Hx'. destruct (truncate_map _ _ _ _ Hx H) as (Hab & ya & yb & Ea & Eb & E).
    assert (Ed : t_dom x' = bnd a b).
    { rewrite E. cbn [compute_codomain t_dom]. rewrite inter_comm. apply inter_sub_eq; [apply wf_mk|].
      intros t Ht. apply In_bnd in Ht. apply (In_convex a t b); auto; apply dom_contains; eauto. }
    split; auto. intros t Ht. set (m0 := filter (fun kv => contains (bnd a b) (fst kv)) (t_map x)) in *.
    assert (S0 : sorted m0) by (apply sorted_filter; auto).
    (* both are refined by the map of x with a and b added *)
    set (M := put b yb (put a ya (t_map x))). assert (HM : refines x M) by (apply refines_put; auto; apply refines_put; auto; apply refines_refl; auto).
    rewrite !traj_at_pl by auto. rewrite <- (pl_refines x M t Hx HM).
    assert (SM : sorted M) by apply HM.
    assert (Hx'm : forall k v, List.In (k, v) (t_map x') <-> List.In (k, v) M /\ a <= k <= b).
    { intros k v. rewrite E. cbn [compute_codomain t_map]. unfold M. rewrite !in_put by auto using sorted_put.
      unfold m0. rewrite filter_In, contains_true, In_bnd. cbn [fst]. split.
      - intros [[-> ->]|[Hn [[-> ->]|[Hn' [Hk Hb]]]]]; split; auto; try lra.
      - intros [[[-> ->]|[Hn [[-> ->]|[Hn' Hk]]]] Hb]; auto; right; split; auto. }
    assert (Hin : In t (t_dom x')) by (rewrite Ed; apply In_bnd; auto). apply dom_contains in Hin; auto. destruct Hin as [v Hv]. rewrite Hv. symmetry.
    pose proof Hx' as (_ & S' & _). destruct (pl_split _ _ _ S' Hv) as [Hi|(l & k1 & v1 & k2 & v2 & r & Em & Hk & Ev)].
    + apply pl_key; auto. apply Hx'm; auto.
    + (* k1, k2 are consecutive in M too *)
      assert (I1 : List.In (k1, v1) (t_map x')) by (rewrite Em; apply in_or_app; right; left; auto).
      assert (I2' : List.In (k2, v2) (t_map x')) by (rewrite Em; apply in_or_app; right; right; left; auto).
      apply Hx'm in I1, I2'. destruct I1 as [I1 L1], I2' as [I2' L2].
      destruct (proj2 (pl_def M t SM)) as [w Hw]; [exists k1, k2; repeat split; try lra; red; eauto|].
      rewrite Hw. f_equal. destruct (pl_split _ _ _ SM Hw) as [Hi|(l' & a1 & w1 & a2 & w2 & r' & Em' & Hk' & Ew)].
      { assert (List.In (t, w) (t_map x')) by (apply Hx'm; auto). pose proof (pl_key _ _ _ S' H0). congruence. }
      assert (J1 : List.In (a1, w1) M) by (rewrite Em'; apply in_or_app; right; left; auto).
      assert (J2 : List.In (a2, w2) M) by (rewrite Em'; apply in_or_app; right; right; left; auto).
      assert (Cons : forall (m : smap) l k v k' v' r c vc, sorted m -> m = l ++ (k, v) :: (k', v') :: r -> List.In (c, vc) m -> c <= k \/ k' <= c).
      { clear. intros m l k v k' v' r c vc S -> H. induction l as [|p l IH]; cbn [app] in *; destruct H as [E|H].
        - injection E; intros; lra.
        - destruct H as [E|H]; [injection E; intros; lra|]. apply (sorted_head _ _ _ _ _ (sorted_tail _ _ S)) in H. lra.
        - subst p. left. apply Rlt_le. apply (sorted_head _ _ _ k v S), in_or_app. right; left; auto.
        - apply IH; auto. apply (sorted_tail _ _ S). }
      destruct (Cons M l' a1 w1 a2 w2 r' k1 v1 SM Em' I1) as [C1|C1]; [|lra]. destruct (Cons M l' a1 w1 a2 w2 r' k2 v2 SM Em' I2') as [C2|C2]; [lra|].
      assert (X1 : List.In (a1, w1) (t_map x') \/ a1 < a) by (destruct (Rlt_dec a1 a); auto; left; apply Hx'm; split; auto; lra).
      assert (X2 : List.In (a2, w2) (t_map x') \/ b < a2) by (destruct (Rlt_dec b a2); auto; left; apply Hx'm; split; auto; lra).
      assert (Y1 : a1 = k1).
      { destruct X1 as [X1|X1].
        - destruct (Cons (t_map x') l k1 v1 k2 v2 r a1 w1 S' Em X1) as [C|C]; lra.
        - exfalso. assert (List.In (a, ya) M) by (unfold M; apply in_put; auto using sorted_put; destruct (Req_dec a b); [lra|right; split; auto; apply in_put; auto]).
          destruct (Cons M l' a1 w1 a2 w2 r' a ya SM Em' H0); lra. }
      assert (Y2 : a2 = k2).
      { destruct X2 as [X2|X2].
        - destruct (Cons (t_map x') l k1 v1 k2 v2 r a2 w2 S' Em X2) as [C|C]; lra.
        - exfalso. assert (List.In (b, yb) M) by (unfold M; apply in_put; auto using sorted_put).
          destruct (Cons M l' a1 w1 a2 w2 r' b yb SM Em' H0); lra. }
      subst a1 a2. rewrite Ew, Ev. rewrite (sorted_inj M k1 v1 w1), (sorted_inj M k2 v2 w2); auto.
  - intros s t. rewrite !traj_at_pl by auto using ok_shift. rewrite shift_map by auto. clear.
    induction (t_map x) as [|[k v] r IH]; auto. cbn [map]. rewrite !pl_cons. cbn [fst snd].
    assert (E1 : Reqb (k + s) (t + s) = Reqb k t).
    { destruct (Reqb k t) eqn:E; [apply Reqb_true in E; apply Reqb_true; lra|apply Reqb_false in E; apply Reqb_false; lra]. }
    assert (E2 : forall k, Rltb (t + s) (k + s) = Rltb t k).
    { intros k0. destruct (Rltb t k0) eqn:E; [apply Rltb_true in E; apply Rltb_true; lra|apply Rltb_false in E; apply Rltb_false; lra]. }
    rewrite E1, E2. destruct (Reqb k t); auto. destruct (Rltb t k); auto. destruct r as [|[k2 v2] r]; auto. cbn [map fst snd] in *. rewrite E2, IH.
    destruct (Rltb t k2); auto. unfold lerp. cbn [fst snd]. f_equal. replace (t + s - (k + s)) with (t - k) by ring. replace (k2 + s - (k + s)) with (k2 - k) by ring. auto.
Qed.
Example C61_case : traj_ok (traj_map mE) /\ exists x', traj_truncate (1/2) 2 (traj_map mE) = Some x'.
Proof.
  assert (H : traj_ok (traj_map mE)) by (apply ok_map, mE_sorted). split; auto. unfold traj_truncate.
  assert (H1 : forall t, 0 <= t <= 3 -> In t (t_dom (traj_map mE))) by (intros t Ht; cbn; apply In_bnd; auto).
  assert (Hs : is_superset (t_dom (traj_map mE)) (bnd (1/2) 2) = true).
  { apply sub_is_subset; [apply wf_mk|]. intros t Ht. apply In_bnd in Ht. apply H1. lra. }
  rewrite Hs, (Rltb_t (1/2) 2) by lra. cbn [andb]. rewrite !traj_at_pl by auto. pose proof H as (-> & _). destruct (proj1 (dom_contains _ (1/2) H)) as [v ->]; [apply H1; lra|].
  destruct (proj1 (dom_contains _ 2 H)) as [w ->]; [apply H1; lra|]. eauto.
Qed.

Print Assumptions C34_eval.
Print Assumptions C34_interval.
Print Assumptions C34_refuted.
Print Assumptions C35_partial.
Print Assumptions C35_refuted.
Print Assumptions C36_partial.
Print Assumptions C36_refuted.
Print Assumptions C61_values.
