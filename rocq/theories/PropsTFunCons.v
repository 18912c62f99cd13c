(** * C106: tubes and trajectories built from temporal functions *)

From Coq Require Import Reals Lra Lia Bool List Arith.
From Verif Require Import Itv Arith Tube TubeOps TubeSpec TubeFacts TubeOpsFacts TubeOpsFacts2 TubeQueries TubeQueries2 ConvertFacts Concrete PicardFacts
  TFun PropsTFun Trajectory TrajFacts TrajVec PropsTraj PropsTrajArith PropsTrajVec TFunCons.
Import ListNotations.
Open Scope R_scope.

(** ** Specification *)
(** [F] encloses the function [f] of the time, whatever the other components of the box are *)
Definition of_time (n : nat) (f : R -> list R) (F : list itv -> list itv) : Prop := encloses n (fun p => f (nth 0 p 0)) F.

(** a function [F] of n values, evaluated on a tube [x] which contains a trajectory: the result is well formed, has the
    slicing of [x] and contains [f]; its values are those of [F] on the slices and at the gates *)
Definition built_as (a b : R) (n i : nat) (f : R -> list R) (F : list itv -> list itv) (m : nat) (x y : tube) : Prop :=
  tube_ok a b y /\ same_dom y x /\ has y (fun t => nth i (f t) 0) /\
  forall s t, List.In s y ->
    (s_lb s < t < s_ub s -> eval_t y t = nth i (F (s_dom s :: repeat (eval_t x t) m)) Emp) /\
    (t = s_lb s \/ t = s_ub s -> eval_t y t = nth i (F (pt t :: repeat (eval_t x t) m)) Emp).

Lemma repeat_eq {A} (v : A) l : (forall w, List.In w l -> w = v) -> l = repeat v (length l).
Proof. induction l as [|w l IH]; intros H; cbn; auto. rewrite (H w) by (left; auto). rewrite <- IH; auto. intros u U. apply H. right; auto. Qed.
Lemma repeat_map {A B} (h : A -> B) v n : map h (repeat v n) = repeat (h v) n.
Proof. induction n; cbn; congruence. Qed.
(** the same slice in two tubes with the same slicing *)
Lemma slice_of (x y : tube) s : same_dom y x -> List.In s y -> exists s', List.In s' x /\ s_lb s' = s_lb s /\ s_ub s' = s_ub s.
Proof.
  intros D H. apply (List.in_map (fun s => (s_lb s, s_ub s))) in H. unfold same_dom in D. rewrite D in H.
  apply in_map_iff in H as (s' & E & H). exists s'. injection E as E1 E2. auto.
Qed.
Lemma eval_copies a b n m f F x g : (0 < n)%nat -> (0 < m)%nat -> tube_ok a b x -> has x g -> of_time n f F -> isotonic F ->
  exists y, tfunction_eval F n (repeat x m) = Some y /\ length y = n /\
    forall i u, nth_error y i = Some u -> built_as a b n i f F m x u.
Proof.
  intros Hn Hm O H HF HI. set (X := repeat x m).
  assert (HX : forall t, List.In t X -> t = x) by (intros t Ht; apply repeat_spec in Ht; auto).
  assert (Ix : List.In x X) by (unfold X; destruct m; [lia|left; auto]).
  assert (NX : X <> []) by (intros E; rewrite E in Ix; destruct Ix).
  assert (OX : Forall (tube_ok a b) X) by (apply Forall_forall; intros t Ht; rewrite (HX t Ht); auto).
  assert (SX : same_slices X) by (intros t u Ht Hu; rewrite (HX t Ht), (HX u Hu); reflexivity).
  destruct (C104_function_partial a b n (fun p => f (nth 0 p 0)) F X (repeat g m) Hn NX OX SX HF) as (y & E & L & P).
  { unfold X. clear - H. induction m; cbn; constructor; auto. }
  assert (NE : existsb tube_is_empty X = false).
  { destruct (existsb tube_is_empty X) eqn:Ee; auto. apply existsb_exists in Ee as (t & Ht & B). rewrite (HX t Ht), (empty_no a b x g O H) in B. discriminate. }
  destruct (C104_values a b n F X Hn NX OX SX (proj1 HF) HI NE) as (y' & E' & _ & P'). rewrite E in E'. injection E' as <-.
  exists y. split; auto. split; auto. intros i u U. destruct (P i u U) as (P1 & P2). destruct (P' i u U) as (P3 & P4).
  refine (conj P3 (conj (P2 x Ix) (conj P1 _))). intros s t Hs. destruct (slice_of x u s (P2 x Ix) Hs) as (s' & Hs' & E1 & E2).
  destruct (P4 x s' t Ix Hs') as (V1 & V2). unfold X in V1, V2. rewrite repeat_map in V1, V2. unfold s_dom in *. rewrite E1, E2 in V1, V2. auto.
Qed.
Lemma built_copy a b n i f F m x y : built_as a b n i f F m x y -> copy_tube y = y.
Proof. intros (O & _). apply copy_tube_eq. apply (ok_shared _ _ _ O). Qed.
Lemma fnc_of_spec a b n i f F x g : (i < n)%nat -> tube_ok a b x -> has x g -> of_time n f F -> isotonic F ->
  exists y, fnc_of (tfunction_eval F n) i x = Some y /\ built_as a b n i f F 1 x y.
Proof.
  intros Hi O H HF HI. destruct (eval_copies a b n 1 f F x g) as (y & E & L & P); auto; try lia. cbn [repeat] in E.
  destruct (nth_error y i) as [u|] eqn:U; [|apply nth_error_None in U; lia]. exists u. split; [|auto].
  unfold fnc_of. rewrite E, U. cbn. f_equal. apply (built_copy a b n i f F 1 x u). auto.
Qed.

(** the slices of the constructor with a timestep *)
Lemma loop_nth : forall fuel lb b dt k s, 0 < dt -> nth_error (timestep_loop fuel lb b dt) k = Some s ->
  s_lb s = lb + INR k * dt /\ s_ub s = Rmin (lb + INR (Datatypes.S k) * dt) b.
Proof.
  induction fuel as [|n IH]; intros lb b dt k s Hd; [destruct k; discriminate|]. cbn [timestep_loop].
  destruct k as [|k]; cbn [nth_error].
  - intros E. injection E as <-. cbn. split; [lra|]. f_equal. lra.
  - destruct (Rltb (Rmin (lb + dt) b) b) eqn:El; [|destruct k; discriminate]. intros E.
    apply Rltb_true in El. assert (Em : Rmin (lb + dt) b = lb + dt) by (unfold Rmin in *; destruct (Rle_dec (lb + dt) b); lra). rewrite Em in E.
    destruct (IH _ _ _ _ _ Hd E) as (H1 & H2). rewrite H1, H2. rewrite !S_INR. split; [ring|]. f_equal. ring.
Qed.
Lemma timestep_nth a b dt k s : a < b -> 0 <= dt -> nth_error (tube_timestep a b dt ALL) k = Some s ->
  (0 < dt -> s_lb s = a + INR k * dt /\ s_ub s = Rmin (a + INR (Datatypes.S k) * dt) b) /\ (dt = 0 -> s_lb s = a /\ s_ub s = b).
Proof.
  intros Hab Hdt. unfold tube_timestep. rewrite itv_eqb_refl. set (d := if Reqb dt 0 then b - a else dt). intros E. split; intros Hd.
  - assert (d = dt) as Ed by (unfold d; destruct (Reqb dt 0) eqn:R0; auto; apply Reqb_true in R0; lra). rewrite Ed in E. apply (loop_nth _ _ _ _ _ _ Hd E).
  - assert (d = b - a) as Ed by (unfold d; rewrite (proj2 (Reqb_true dt 0)); auto). rewrite Ed in E. cbn [timestep_loop] in E.
    replace (a + (b - a)) with b in E by lra. rewrite Rmin_left in E by lra. rewrite (proj2 (Rltb_false b b)) in E by lra.
    destruct k as [|[|k]]; cbn in E; try discriminate. injection E as <-. auto.
Qed.

Lemma loop_ALL : forall fuel lb b dt s, List.In s (timestep_loop fuel lb b dt) -> s_cod s = ALL /\ s_in s = ALL /\ s_out s = ALL.
Proof.
  induction fuel as [|n IH]; intros lb b dt s H; [destruct H|]. cbn [timestep_loop] in H. destruct H as [<-|H]; [cbn; auto|].
  destruct (Rltb _ _); [eauto|destruct H].
Qed.
Lemma timestep_val a b dt t : a < b -> 0 <= dt -> a <= t <= b -> eval_t (tube_timestep a b dt ALL) t = ALL.
Proof.
  intros Hab Hdt Ht. pose proof (tube_timestep_ok a b dt ALL Hab Hdt wf_ALL) as O.
  destruct (cover _ a b t O Ht) as (k & s & Es & Hs). rewrite (eval_t_slice a b _ k s t O Es Hs). apply nth_error_In in Es.
  unfold tube_timestep in Es. rewrite itv_eqb_refl in Es. destruct (loop_ALL _ _ _ _ _ Es) as (E1 & E2 & E3).
  unfold slice_eval. rewrite E1, E2, E3. repeat match goal with |- context [if ?c then _ else _] => destruct c end; auto.
Qed.

(** C106: [Tube(tdomain, dt, f)] contains [f], has slices of width [dt] (the last one may be smaller; only one if dt = 0)
    and is as precise as the evaluation of [f] on the slices and at the gates. *)
Theorem C106_tube : forall a b dt n i f F, a < b -> 0 <= dt -> (i < n)%nat -> of_time n f F -> isotonic F ->
  exists y, tube_fnc a b dt (tfunction_eval F n) i = Some y /\ tube_ok a b y /\ has y (fun t => nth i (f t) 0) /\
    (forall k s, nth_error y k = Some s ->
       (0 < dt -> s_lb s = a + INR k * dt /\ s_ub s = Rmin (a + INR (k + 1) * dt) b) /\ (dt = 0 -> s_lb s = a /\ s_ub s = b)) /\
    (forall s t, List.In s y ->
      (s_lb s < t < s_ub s -> eval_t y t = nth i (F [s_dom s; ALL]) Emp) /\
      (t = s_lb s \/ t = s_ub s -> eval_t y t = nth i (F [pt t; ALL]) Emp)).
Proof.
  intros a b dt n i f F Hab Hdt Hi HF HI. pose proof (tube_timestep_ok a b dt ALL Hab Hdt wf_ALL) as O.
  destruct (fnc_of_spec a b n i f F (tube_timestep a b dt ALL) (fun _ => 0)) as (y & E & Oy & D & Hy & V); auto.
  { apply tube_timestep_has; auto using wf_ALL. intros. apply In_ALL. }
  exists y. refine (conj E (conj Oy (conj Hy (conj _ _)))).
  - intros k s Es. unfold same_dom in D. pose proof (map_nth_error (fun s => (s_lb s, s_ub s)) k y Es) as Em. rewrite D in Em.
    rewrite nth_error_map in Em. destruct (nth_error (tube_timestep a b dt ALL) k) as [s'|] eqn:Es'; [|discriminate]. injection Em as E1 E2.
    destruct (timestep_nth a b dt k s' Hab Hdt Es') as (H1 & H2). rewrite <- E1, <- E2. rewrite Nat.add_1_r. auto.
  - intros s t Hs. destruct (V s t Hs) as (V1 & V2). cbn [repeat] in V1, V2.
    destruct (chain_in_bounds _ _ _ _ (ok_chain _ _ _ Oy) Hs) as (B1 & B2 & B3).
    split; intros Ht; [rewrite V1 by auto|rewrite V2 by auto]; rewrite timestep_val; auto; lra.
Qed.

(** C106: [Tube(x, f)] is the same with the slicing of [x], if [x] contains a trajectory. *)
Theorem C106_as_partial : forall a b n i f F x g, (i < n)%nat -> tube_ok a b x -> has x g -> of_time n f F -> isotonic F ->
  exists y, tube_as x (tfunction_eval F n) i = Some y /\ tube_ok a b y /\ same_dom y x /\ has y (fun t => nth i (f t) 0).
Proof.
  intros a b n i f F x g Hi O H HF HI. unfold tube_as. rewrite (copy_tube_eq x (ok_shared _ _ _ O)).
  destruct (fnc_of_spec a b n i f F x g) as (y & E & Oy & D & Hy & _); eauto.
Qed.
(** C106: if [x] is empty at some instant, [Tube(x, f)] is empty everywhere, although [f] does not depend on [x]. *)
Theorem C106_as_empty : forall a b n i F x, (i < n)%nat -> tube_ok a b x -> tube_is_empty x = true ->
  exists y, tube_as x (tfunction_eval F n) i = Some y /\ forall t, a <= t <= b -> eval_t y t = Emp.
Proof.
  intros a b n i F x Hi O He. unfold tube_as. rewrite (copy_tube_eq x (ok_shared _ _ _ O)).
  destruct (C104_empty a b n F (fun _ => None) [x]) as (y & E & _ & L & P); [lia|discriminate|repeat constructor; auto; apply O|cbn; rewrite He; auto|].
  destruct (nth_error y i) as [u|] eqn:U; [|apply nth_error_None in U; lia]. exists u.
  assert (Ou : tube_ok a b u) by (apply (P u a); eapply nth_error_In; eauto).
  split; [unfold fnc_of; rewrite E, U; cbn; f_equal; apply copy_tube_eq; apply (ok_shared _ _ _ Ou)|].
  intros t Ht. apply (P u t); auto. eapply nth_error_In; eauto.
Qed.

(** C106: [TubeVector(tdomain, dt, f)]: the same for each component. *)
Theorem C106_vector : forall a b dt n f F, a < b -> 0 <= dt -> (0 < n)%nat -> of_time n f F -> isotonic F ->
  exists y, tubes_fnc a b dt n (tfunction_eval F n) = Some y /\ length y = n /\
    forall i u, nth_error y i = Some u -> tube_ok a b u /\ same_dom u (tube_timestep a b dt ALL) /\ has u (fun t => nth i (f t) 0).
Proof.
  intros a b dt n f F Hab Hdt Hn HF HI. pose proof (tube_timestep_ok a b dt ALL Hab Hdt wf_ALL) as O.
  destruct (eval_copies a b n n f F (tube_timestep a b dt ALL) (fun _ => 0)) as (y & E & L & P); auto.
  { apply tube_timestep_has; auto using wf_ALL. intros. apply In_ALL. }
  exists y. unfold tubes_fnc. rewrite E. cbn [option_map]. split; [|split; auto].
  - f_equal. rewrite <- (map_id y) at 2. apply map_ext_in. intros u Hu. apply In_nth_error in Hu as (i & Hu).
    apply (built_copy a b n i f F n (tube_timestep a b dt ALL)). auto.
  - intros i u U. destruct (P i u U) as (P1 & P2 & P3 & _). auto.
Qed.

(** ** Trajectories *)
(** [F] is exact on points *)
Definition exact_on (n : nat) (f : list R -> list R) (F : list itv -> list itv) : Prop :=
  forall v, length (f v) = n /\ F (map pt v) = map pt (f v).

Lemma mid_pt v : map midpoint (map pt v) = v.
Proof. rewrite map_map. rewrite <- (map_id v) at 2. apply map_ext. intros r. cbn. field. Qed.
(** the midpoints of [F] are the values of [f] *)
Definition mid_on (n : nat) (f : list R -> list R) (F : list itv -> list itv) : Prop :=
  forall v, length (f v) = n /\ map midpoint (F (map pt v)) = f v.
Lemma exact_mid n f F : exact_on n f F -> mid_on n f F.
Proof. intros H v. destruct (H v) as [A B]. split; auto. rewrite B. apply mid_pt. Qed.
Lemma traj_loop_spec n f F nv x V : mid_on n f F -> forall keys z,
  (forall k, List.In k keys -> tv_at x k = Some (V k) /\ (length (V k) <= nv)%nat) -> length z = n -> Forall traj_ok z ->
  exists z', traj_loop F nv x keys z = Some z' /\ length z' = n /\ Forall traj_ok z' /\
    forall i a, nth_error z i = Some a -> exists a', nth_error z' i = Some a' /\ set_all (map (fun k => (k, nth i (f (k :: V k)) 0)) keys) a = Some a'.
Proof.
  intros HF. induction keys as [|k keys IH]; intros z H L Fz; cbn [traj_loop].
  - exists z. repeat split; auto. intros i a E. exists a. auto.
  - destruct (H k) as [Ek Lk]; [left; auto|]. rewrite Ek. rewrite (proj2 (Nat.leb_le _ _) Lk).
    destruct (HF (k :: V k)) as (Lf & Ef). rewrite Ef.
    destruct (tv_set_spec (f (k :: V k)) k z ltac:(lia) Fz) as (z1 & E1 & L1 & F1 & N1).
    assert (Es : tv_set (f (k :: V k)) k z = Some z1).
    { unfold tv_set. destruct z; auto. cbn in L. rewrite Lf, <- L. exact E1. }
    rewrite Es. destruct (IH z1) as (z2 & E2 & L2 & F2 & N2); [intros k' Hk'; apply H; right; auto|lia|auto|].
    exists z2. split; auto. split; auto. split; auto. intros i a E. destruct (N1 i a E) as (a1 & Ea1 & Sa1). destruct (N2 i a1 Ea1) as (a2 & Ea2 & Sa2).
    exists a2. split; auto. cbn [map set_all]. rewrite Sa1. exact Sa2.
Qed.

Lemma traj_mid : forall D n f F x0 x, (0 < n)%nat -> good D (x0 :: x) -> mid_on n f F ->
  exists z, traj_eval_vector F (length (x0 :: x)) n (x0 :: x) = Some z /\ length z = n /\ good D z /\
    (forall a, List.In a z -> map fst (t_map a) = map fst (t_map x0)) /\
    forall t v, value_of (x0 :: x) t v -> is_key (t_map x0) t -> value_of z t (f (t :: v)).
Proof.
  intros D n f F x0 x Hn G HF. destruct (G x0) as [O0 D0]; [left; auto|]. pose proof O0 as (F0 & S0 & Sm & C0). rewrite D0 in Sm.
  set (X := x0 :: x) in *. pose (V := fun k => match tv_values X k with Some v => v | None => [] end).
  assert (HK : forall k, List.In k (map fst (t_map x0)) -> In k D) by (intros k Hk; apply (smallest_In _ _ _ Sm); apply is_key_fst; auto).
  assert (HV : forall k, In k D -> tv_values X k = Some (V k)).
  { intros k Hk. unfold V. destruct (values_def D X k G Hk) as [v ->]. auto. }
  destruct (traj_loop_spec n f F (length X) X V HF (map fst (t_map x0)) (repeat traj_new n)) as (z & Ez & Lz & Fz & Nz).
  - intros k Hk. apply HK in Hk. pose proof (HV k Hk) as Ev. split.
    + unfold tv_at, X. fold X. rewrite D0. rewrite (proj2 (contains_true D k) Hk). auto.
    + apply values_iff in Ev. apply value_len in Ev. lia.
  - apply repeat_length.
  - apply Forall_forall. intros a Ha. apply repeat_spec in Ha. subst. apply ok_new.
  - assert (Z : forall i zi, nth_error z i = Some zi -> traj_ok zi /\ t_dom zi = D /\ t_map zi = map (fun k => (k, nth i (f (k :: V k)) 0)) (map fst (t_map x0))).
    { intros i zi Ei. assert (Hi : (i < n)%nat) by (rewrite <- Lz; apply nth_error_Some; congruence).
      destruct (Nz i traj_new) as (zi' & Ei' & Sz); [apply nth_error_repeat; auto|]. rewrite Ei in Ei'. injection Ei' as <-.
      destruct (set_all_map (map (fun k => (k, (fun k => nth i (f (k :: V k)) 0) k)) (map fst (t_map x0))) traj_new) as (zi' & E' & Em & Oz);
        [apply ok_new|apply sorted_map_keys; auto|intros ? ? ? ? []|].
      rewrite E' in Sz. injection Sz as ->. cbn [traj_new t_map app] in Em. split; auto. split; auto. pose proof Oz as (_ & _ & Dz & _).
      apply (smallest_uniq (is_key (t_map zi))); auto. apply (smallest_ext (is_key (t_map x0))); auto. intros k. rewrite !is_key_fst, Em, map_map. cbn. rewrite map_id. tauto. }
    exists z. split; [|split; [auto|split; [|split]]].
    + unfold traj_eval_vector. rewrite Nat.eqb_refl, orb_true_r. unfold first_keys, X. rewrite F0. unfold tv_new. destruct n; [lia|]. cbn [Nat.eqb]. exact Ez.
    + intros a Ha. apply In_nth_error in Ha as (i & Ha). destruct (Z i a Ha) as (Z1 & Z2 & _). auto.
    + intros a Ha. apply In_nth_error in Ha as (i & Ha). destruct (Z i a Ha) as (_ & _ & ->). rewrite map_map. cbn. apply map_id.
    + intros t v Hv Hk. apply values_iff in Hv. destruct (HF (t :: v)) as (Lf & _).
      assert (Ev : V t = v) by (unfold V; rewrite Hv; auto).
      assert (P : forall i zi, nth_error z i = Some zi -> traj_at zi t = Some (nth i (f (t :: v)) 0)).
      { intros i zi Ei. destruct (Z i zi Ei) as (Oz & _ & Em). rewrite traj_at_pl by auto. apply pl_key; [apply Oz|]. rewrite Em, <- Ev.
        apply in_map_iff. exists t. split; auto. apply is_key_fst. auto. }
      clear - P Lz Lf. assert (L : length z = length (f (t :: v))) by congruence. revert L P. generalize (f (t :: v)). clear. unfold value_of.
      induction z as [|a z IH]; intros [|r l] L P; try discriminate; constructor; [apply (P 0%nat a eq_refl)|].
      apply IH; [cbn in L; lia|]. intros i zi E. apply (P (Datatypes.S i) zi E).
Qed.
(** C106: the trajectory f(t, x(t)) has the sample times of the first component of [x], and its exact values there; all
    the components have the domain of [x]. *)
Theorem C106_traj_partial : forall D n f F x0 x, (0 < n)%nat -> good D (x0 :: x) -> exact_on n f F ->
  exists z, traj_eval_vector F (length (x0 :: x)) n (x0 :: x) = Some z /\ length z = n /\ good D z /\
    (forall a, List.In a z -> map fst (t_map a) = map fst (t_map x0)) /\
    forall t v, value_of (x0 :: x) t v -> is_key (t_map x0) t -> value_of z t (f (t :: v)).
Proof. intros D n f F x0 x Hn G HF. apply traj_mid; auto. apply exact_mid; auto. Qed.
(** C106: when the evaluation at a point is an interval of width at most [w], the midpoint is kept: the error is at most w/2. *)
Definition within (n : nat) (w : R) (f : list R -> list R) (F : list itv -> list itv) : Prop :=
  forall v, length (f v) = n /\ Forall2 (fun r i => exists a b, i = bnd a b /\ a <= r <= b /\ b - a <= w) (f v) (F (map pt v)).
Theorem C106_traj_error : forall D n w f F x0 x, (0 < n)%nat -> good D (x0 :: x) -> within n w f F ->
  exists z, traj_eval_vector F (length (x0 :: x)) n (x0 :: x) = Some z /\ length z = n /\ good D z /\
    (forall a, List.In a z -> map fst (t_map a) = map fst (t_map x0)) /\
    forall t v, value_of (x0 :: x) t v -> is_key (t_map x0) t ->
      exists u, value_of z t u /\ Forall2 (fun r r' => Rabs (r - r') <= w / 2) (f (t :: v)) u.
Proof.
  intros D n w f F x0 x Hn G HF. destruct (traj_mid D n (fun v => map midpoint (F (map pt v))) F x0 x Hn G) as (z & E & L & Gz & K & P).
  { intros v. split; auto. rewrite map_length. destruct (HF v) as [<- H]. clear - H. induction H; cbn; auto. }
  exists z. repeat split; auto; try (apply Gz; auto). intros t v Hv Hk. eexists. split; [apply (P t v Hv Hk)|].
  destruct (HF (t :: v)) as [_ H]. induction H as [|r i l l' (a & b & -> & Hr & Hw) H IH]; cbn [map]; constructor; auto.
  apply Rabs_le. cbn. destruct (Rle_dec a b); [|lra]. cbn. lra.
Qed.
(** C106: with no variable but the time the vector has no room for x(t): an assertion fails for all x. *)
Theorem C106_traj_novar : forall D n F x t, (0 < n)%nat -> x <> [] -> good D x -> In t D -> traj_eval_vector F 0 n x = None.
Proof.
  intros D n F [|x0 x] t Hn Hx G Ht; [congruence|]. destruct (G x0) as [O0 D0]; [left; auto|]. pose proof O0 as (F0 & S0 & Sm & _). 
  unfold traj_eval_vector. cbn [Nat.eqb orb]. unfold first_keys. rewrite F0. unfold tv_new. destruct n; [lia|]. cbn [Nat.eqb].
  destruct (t_map x0) as [|[k w] r] eqn:Em; cbn [map traj_loop fst].
  - exfalso. rewrite <- D0 in Ht. destruct (proj1 (dom_contains x0 t O0) Ht) as (w & Hw). rewrite Em in Hw. discriminate.
  - destruct (tv_at (x0 :: x) k) as [v|] eqn:Ev; auto. apply tv_at_len in Ev. destruct v; [discriminate|]. reflexivity.
Qed.
(** C106: between the samples of the first component, the sample times of the others are ignored. *)
Definition snd2 (v : list R) : list R := [nth 2 v 0].
Definition snd2I (v : list itv) : list itv := [nth 2 v (pt 0)].
Lemma snd2_exact : exact_on 1 snd2 snd2I.
Proof. intros v. split; auto. unfold snd2I, snd2. cbn [map]. rewrite (map_nth pt v 0 2). auto. Qed.
Theorem C106_traj_refuted : exists D n f F x0 x z t v, (0 < n)%nat /\ good D (x0 :: x) /\ exact_on n f F /\
  traj_eval_vector F (length (x0 :: x)) n (x0 :: x) = Some z /\ value_of (x0 :: x) t v /\ (exists a, List.In a x /\ is_key (t_map a) t) /\
  ~ value_of z t (f (t :: v)).
Proof.
  assert (G : good (bnd 0 2) [xA; xB]) by (intros a [<-|[<-|[]]]; [apply xA_ok|apply xB_ok]).
  destruct (C106_traj_partial (bnd 0 2) 1 snd2 snd2I xA [xB] ltac:(lia) G snd2_exact) as (z & E & L & Gz & K & P).
  exists (bnd 0 2), 1%nat, snd2, snd2I, xA, [xB], z, 1, [0; 1].
  refine (conj _ (conj G (conj snd2_exact (conj E (conj _ (conj _ _)))))); [lia| | |].
  - constructor; [apply xA_0; lra|constructor; [apply xB_1|constructor]].
  - exists xB. split; [left; auto|]. exists 1. unfold xB. rewrite map_of_traj. right; left; auto.
  - intros H. destruct z as [|a [|]]; try discriminate. inversion H as [|? ? ? ? H1 _]; subst. clear H.
    destruct (Gz a) as (Oa & _); [left; auto|]. specialize (K a (or_introl eq_refl)).
    assert (B : forall t, traj_at xB t = Some 0 -> is_key (t_map xA) t -> 0 <= t <= 2 -> traj_at a t = Some 0).
    { intros t Ht Hk B. specialize (P t [0; 0]). assert (W : value_of [a] t (snd2 [t; 0; 0])); [apply P; auto|].
      - constructor; [apply xA_0; auto|constructor; [auto|constructor]].
      - inversion W; auto. }
    change (map fst (t_map xA)) with [0; 2] in K.
    assert (B0 : traj_at xB 0 = Some 0) by (rewrite traj_at_pl by apply xB_ok; unfold xB; rewrite map_of_traj; apply pl_key; [cbn; repeat split; repeat constructor; cbn; lra|left; auto]).
    assert (B2 : traj_at xB 2 = Some 0) by (rewrite traj_at_pl by apply xB_ok; unfold xB; rewrite map_of_traj; apply pl_key; [cbn; repeat split; repeat constructor; cbn; lra|right; right; left; auto]).
    apply B in B0; [|exists 0; left; auto|lra]. apply B in B2; [|exists 0; right; left; auto|lra].
    rewrite traj_at_pl in H1, B0, B2 by auto. destruct Oa as (_ & Sa & _). destruct (t_map a) as [|[k w] [|[k' w'] [|]]]; try discriminate.
    cbn in K. injection K as -> ->.
    rewrite (pl_key _ 0 w) in B0 by (auto; left; auto). rewrite (pl_key _ 2 w') in B2 by (auto; right; left; auto). injection B0 as ->. injection B2 as ->.
    rewrite (pl_seg [(0, 0); (2, 0)] [] 0 0 2 0 [] 1) in H1 by (auto; lra). injection H1 as H1. unfold lerp, snd2 in H1. cbn in H1. lra.
Qed.

(** ** Concrete cases *)
(** t -> (t, 2t) *)
Definition fR (t : R) : list R := [t; t + t].
Definition fI (b : list itv) : list itv := [nth 0 b ALL; xadd (nth 0 b ALL) (nth 0 b ALL)].
Lemma xadd_in v w i j : In v i -> In w j -> In (v + w) (xadd i j).
Proof. destruct i as [|l h], j as [|l' h']; try contradiction. cbn. intros (H1 & H2) (H3 & H4). destruct l, h, l', h'; cbn in *; split; auto; lra. Qed.
Lemma xadd_wf i j : wf i -> wf j -> wf (xadd i j).
Proof. destruct i as [|[l|] [h|]], j as [|[l'|] [h'|]]; cbn; auto; lra. Qed.
Lemma f_time : of_time 2 fR fI.
Proof.
  split; [reflexivity|]. intros p b H.
  assert (H0 : In (nth 0 p 0) (nth 0 b ALL)) by (destruct H; cbn [nth]; [apply In_ALL|auto]).
  repeat (apply Forall2_cons); [exact H0|apply xadd_in; exact H0|constructor].
Qed.
Lemma f_isotonic : isotonic fI.
Proof.
  assert (W0 : forall b, Forall wf b -> wf (nth 0 b ALL)) by (intros b W; destruct W; cbn [nth]; [apply wf_ALL|auto]).
  split.
  - intros b W. repeat (apply Forall_cons); [auto|apply xadd_wf; auto|constructor].
  - intros b c Wb Wc H. assert (H0 : sub (nth 0 b ALL) (nth 0 c ALL)) by (destruct H; cbn [nth]; [apply sub_refl|auto]).
    repeat (apply Forall2_cons); [exact H0|apply xadd_sub; auto|constructor].
Qed.
Example C106_tube_ex : exists y, tube_fnc 0 2 (3/2) (tfunction_eval fI 2) 1 = Some y /\ has y (fun t => t + t) /\
  eval_t y 1 = I2 0 3 /\ eval_t y (3/2) = pt 3 /\ eval_t y (7/4) = I2 3 4.
Proof.
  destruct (C106_tube 0 2 (3/2) 2 1 fR fI) as (y & E & O & H & D & V); [lra|lra|lia|exact f_time|exact f_isotonic|].
  exists y. split; [exact E|]. split; [exact H|].
  assert (C0 : exists s, List.In s y /\ s_lb s = 0 /\ s_ub s = 3/2).
  { destruct (cover y 0 2 1 O ltac:(lra)) as (k & s & Es & Hs). destruct (D k s Es) as (Dk & _). destruct Dk as (B1 & B2); [lra|].
    assert (k = 0)%nat as ->. { destruct k as [|k]; auto. exfalso. rewrite S_INR in B1. pose proof (pos_INR k). lra. }
    exists s. cbn [INR Nat.add] in *. rewrite Rmin_left in B2 by lra. split; [eapply nth_error_In; eauto|lra]. }
  assert (C1 : exists s, List.In s y /\ s_lb s = 3/2 /\ s_ub s = 2).
  { destruct (cover y 0 2 (7/4) O ltac:(lra)) as (k & s & Es & Hs). destruct (D k s Es) as (Dk & _). destruct Dk as (B1 & B2); [lra|].
    assert (k = 1)%nat as ->.
    { destruct k as [|[|k]]; auto; exfalso; [cbn [INR Nat.add] in B2; rewrite Rmin_left in B2; lra|]. rewrite !S_INR in B1. pose proof (pos_INR k). lra. }
    exists s. cbn [INR Nat.add] in *. rewrite Rmin_right in B2 by lra. split; [eapply nth_error_In; eauto|lra]. }
  destruct C0 as (s0 & I0 & L0 & U0). destruct C1 as (s1 & I1 & L1 & U1).
  rewrite (proj1 (V s0 1 I0)) by lra. rewrite (proj2 (V s0 (3/2) I0)) by lra. rewrite (proj1 (V s1 (7/4) I1)) by lra.
  unfold fI, s_dom. cbn [nth]. rewrite L0, U0, L1, U1. unfold pt, xadd, I2. cbn. repeat split; f_equal; f_equal; lra.
Qed.
Example C106_as_ex : exists y z, tube_as tA (tfunction_eval fI 2) 1 = Some y /\ tube_ok 0 2 y /\ same_dom y tA /\ has y (fun t => t + t) /\
  tube_as (tube_set Emp tA) (tfunction_eval fI 2) 1 = Some z /\ eval_t z 1 = Emp.
Proof.
  destruct (C106_as_partial 0 2 2 1 fR fI tA fA) as (y & E & O & D & H); [lia|exact tA_ok|exact tA_fA|exact f_time|exact f_isotonic|].
  destruct (C106_as_empty 0 2 2 1 fI (tube_set Emp tA)) as (z & Ez & Hz); [lia|apply tube_set_ok; [exact Logic.I|exact tA_ok]|rewrite (tube_set_eq Emp tA Logic.I); reflexivity|].
  exists y, z. refine (conj E (conj O (conj D (conj H (conj Ez _))))). apply Hz. lra.
Qed.
(** C106: so [Tube(x, f)] does not always contain [f] *)
Theorem C106_as_refuted : exists a b n i f F x y t, (i < n)%nat /\ tube_ok a b x /\ of_time n f F /\ isotonic F /\
  tube_as x (tfunction_eval F n) i = Some y /\ a <= t <= b /\ ~ In (nth i (f t) 0) (eval_t y t).
Proof.
  assert (Ok : tube_ok 0 2 (tube_set Emp tA)) by (apply tube_set_ok; [exact Logic.I|exact tA_ok]).
  destruct (C106_as_empty 0 2 2 1 fI (tube_set Emp tA)) as (z & Ez & Hz); [lia|exact Ok|rewrite (tube_set_eq Emp tA Logic.I); reflexivity|].
  exists 0, 2, 2%nat, 1%nat, fR, fI, (tube_set Emp tA), z, 1.
  refine (conj _ (conj Ok (conj f_time (conj f_isotonic (conj Ez (conj _ _)))))); [lia|lra|]. rewrite Hz by lra. intros F. exact F.
Qed.
Example C106_vector_ex : exists y, tubes_fnc 0 2 (1/2) 2 (tfunction_eval fI 2) = Some y /\ length y = 2%nat /\
  forall i u, nth_error y i = Some u -> has u (fun t => nth i [t; t + t] 0).
Proof.
  destruct (C106_vector 0 2 (1/2) 2 fR fI) as (y & E & L & P); [lra|lra|lia|exact f_time|exact f_isotonic|].
  exists y. refine (conj E (conj L _)). intros i u U. apply (P i u U).
Qed.
(** the second component of (xA, xB) at the samples of xA, then the first component of (xB, xA) *)
Example C106_traj_ex : exists z, traj_eval_vector snd2I 2 1 [xB; xA] = Some z /\ value_of z 1 [0] /\
  traj_eval_vector snd2I 0 1 [xB; xA] = None.
Proof.
  assert (G : good (bnd 0 2) [xB; xA]) by (intros a [<-|[<-|[]]]; [apply xB_ok|apply xA_ok]).
  destruct (C106_traj_partial (bnd 0 2) 1 snd2 snd2I xB [xA] ltac:(lia) G snd2_exact) as (z & E & L & Gz & K & P).
  exists z. split; [exact E|]. split.
  - apply (P 1 [1; 0]); [constructor; [apply xB_1|constructor; [apply xA_0; lra|constructor]]|]. exists 1. unfold xB. rewrite map_of_traj. right; left; auto.
  - apply (C106_traj_novar (bnd 0 2) 1 snd2I [xB; xA] 0); [lia|discriminate|exact G|apply In_bnd; lra].
Qed.

(** an evaluation with an error of at most 1/2 on each side *)
Definition wideI (v : list itv) : list itv := match nth 2 v (pt 0) with Itv (Some a) (Some b) => [bnd (a - 1/2) (b + 1/2)] | i => [i] end.
Lemma wide_within : within 1 1 snd2 wideI.
Proof.
  intros v. split; auto. unfold wideI, snd2. change (pt 0) with (pt 0). rewrite (map_nth pt v 0 2). cbn [pt]. constructor; [|constructor].
  exists (nth 2 v 0 - 1/2), (nth 2 v 0 + 1/2). split; [reflexivity|lra].
Qed.
Example C106_traj_error_ex : exists z u, traj_eval_vector wideI 2 1 [xB; xA] = Some z /\ value_of z 1 [u] /\ Rabs (0 - u) <= 1 / 2.
Proof.
  assert (G : good (bnd 0 2) [xB; xA]) by (intros a [<-|[<-|[]]]; [apply xB_ok|apply xA_ok]).
  destruct (C106_traj_error (bnd 0 2) 1 1 snd2 wideI xB [xA] ltac:(lia) G wide_within) as (z & E & L & Gz & K & P).
  destruct (P 1 [1; 0]) as (u & V & W).
  - constructor; [apply xB_1|constructor; [apply xA_0; lra|constructor]].
  - exists 1. unfold xB. rewrite map_of_traj. right; left; auto.
  - inversion W as [|r r' ? ? Hr W']; subst. inversion W'; subst. exists z, r'. auto.
Qed.

Print Assumptions C106_tube.
Print Assumptions C106_as_partial.
Print Assumptions C106_as_empty.
Print Assumptions C106_as_refuted.
Print Assumptions C106_vector.
Print Assumptions C106_traj_partial.
Print Assumptions C106_traj_novar.
Print Assumptions C106_traj_refuted.
Print Assumptions C106_traj_error.
