(** * C59: arithmetic on trajectories is pointwise *)

From Coq Require Import Reals Lra Bool List ZArith Lia.
From Verif Require Import Itv Trajectory TrajFacts Concrete PropsTraj.
Import ListNotations.
Open Scope R_scope.

(** a usable operand: sampled with up to date caches, or analytic *)
Definition operand (x : traj) : Prop := t_fun x = None -> traj_ok x.
(** [z] has a sample at each sample time of the operands, and at each of its sample times its value is
    the operation applied to the values of the operands *)
Definition pointwise (op : R -> R -> R) (x y z : traj) : Prop :=
  (forall k, is_key (t_map z) k <-> op_keys x y k) /\
  forall k, is_key (t_map z) k -> exists u v, traj_at x k = Some u /\ traj_at y k = Some v /\ traj_at z k = Some (op u v).

Lemma map_of_traj m : t_map (traj_map m) = m.
Proof. destruct m as [|[k v] r]; auto. Qed.

Lemma binary_spec op x y z : operand x -> operand y -> traj_binary op x y = Some z -> traj_ok z /\ pointwise op x y z.
Proof.
  intros Hx Hy H. unfold traj_binary in H. destruct (itv_eqb (t_dom x) (t_dom y)) eqn:Ed; [|discriminate]. apply itv_eqb_true in Ed.
  destruct (sample_both x y) as [[s1 s2]|] eqn:Es; [|discriminate].
  destruct (sample_both_spec x y s1 s2 Hx Hy Ed Es) as (S & K & Ko & V1 & V2 & _).
  destruct (zip_spec op _ _ K) as (l & El & Kl & Hl). rewrite El in H. injection H as <-.
  assert (Sl : sorted l) by (apply (sorted_keys (t_map s1)); auto). pose proof (ok_map l Sl) as Hz. split; auto. split.
  - intros k. rewrite map_of_traj, is_key_fst, Kl, <- is_key_fst. auto.
  - intros k. rewrite map_of_traj. intros [w Hw]. destruct (Hl _ _ Hw) as (u & v & Hu & Hv & ->). exists u, v. split; auto. split; auto.
    rewrite traj_at_pl, map_of_traj by auto. apply pl_key; auto.
Qed.

Lemma sample_as_def y x : operand x -> t_fun y = None -> traj_ok y -> t_dom x = t_dom y -> exists x', traj_sample_as y x = Some x'.
Proof.
  intros Hx Fy Hy Ed. unfold traj_sample_as. rewrite Fy, Ed, itv_eqb_refl.
  assert (G : forall l m, (forall k, List.In k l -> In k (t_dom x)) -> exists m', sample_keys x l m = Some m').
  { induction l as [|k l IH]; intros m Hk; cbn; [eauto|]. unfold sample_key. destruct (lookup k m); [apply IH; intros; apply Hk; right; auto|].
    assert (E : exists v, traj_at x k = Some v).
    { destruct (t_fun x) eqn:Ef.
      - unfold traj_at. rewrite Ef. rewrite (proj2 (contains_true _ _)) by (apply Hk; left; auto). eauto.
      - rewrite traj_at_pl by auto. apply dom_contains; auto. apply Hk; left; auto. }
    destruct E as [v ->]. apply IH; intros; apply Hk; right; auto. }
  destruct (G (map fst (t_map y)) (sample_start x)) as [m ->]; eauto.
  intros k Hk. apply is_key_fst in Hk. rewrite Ed. destruct Hy as (_ & _ & (_ & A & _) & _). apply A; auto.
Qed.
Lemma sample_both_def x y : operand x -> operand y -> t_dom x = t_dom y -> t_fun x = None \/ t_fun y = None -> exists p, sample_both x y = Some p.
Proof.
  intros Hx Hy Ed Hf. unfold sample_both. destruct (t_fun x) eqn:Ex, (t_fun y) eqn:Ey.
  - destruct Hf; discriminate.
  - destruct (sample_as_def y x) as [s ->]; eauto.
  - destruct (sample_as_def x y) as [s ->]; eauto.
  - destruct (sample_as_def y x) as [s ->]; eauto. destruct (sample_as_def x y) as [s' ->]; eauto.
Qed.

(** the decomposition of a map around two consecutive keys depends on the keys only *)
Lemma split_keys : forall (l m m' : smap) k1 a k2 b r, map fst m = map fst m' -> m = l ++ (k1, a) :: (k2, b) :: r ->
  exists l' a' b' r', m' = l' ++ (k1, a') :: (k2, b') :: r'.
Proof.
  induction l as [|p l IH]; intros m m' k1 a k2 b r E ->; cbn [app map fst] in E.
  - destruct m' as [|[c1 a'] [|[c2 b'] r']]; try discriminate. cbn in E. injection E as E1 E2 E3. subst. exists [], a', b', r'. auto.
  - destruct m' as [|q m']; [discriminate|]. cbn in E. injection E as E1 E2. destruct (IH _ m' k1 a k2 b r E2 eq_refl) as (l' & a' & b' & r' & ->).
    exists (q :: l'), a', b', r'. auto.
Qed.

(** The operators + - * / on two trajectories on the same temporal domain, at least one of them sampled:
    the result is defined and pointwise; for + and - of two sampled trajectories this is so at every
    time, not only at the samples. *)
Theorem C59_binary op x y : operand x -> operand y -> t_dom x = t_dom y -> t_fun x = None \/ t_fun y = None ->
  exists z, traj_binary op x y = Some z /\ traj_ok z /\ pointwise op x y z /\
    ((op = Rplus \/ op = Rminus) -> t_fun x = None -> t_fun y = None ->
     forall t, In t (t_dom x) -> exists u v, traj_at x t = Some u /\ traj_at y t = Some v /\ traj_at z t = Some (op u v)).
Proof.
  intros Hx Hy Ed Hf. destruct (sample_both_def x y Hx Hy Ed Hf) as [[s1 s2] Es].
  destruct (sample_both_spec x y s1 s2 Hx Hy Ed Es) as (S & K & Ko & V1 & V2 & Ds).
  destruct (zip_spec op _ _ K) as (l & El & Kl & Hl).
  assert (Ez : traj_binary op x y = Some (traj_map l)) by (unfold traj_binary; rewrite Ed, itv_eqb_refl, Es, El; auto).
  exists (traj_map l). split; auto. destruct (binary_spec op x y _ Hx Hy Ez) as [Oz Pz]. split; auto. split; auto.
  intros Hop Fx Fy t Ht. pose proof (Hx Fx) as Ox. pose proof (Hy Fy) as Oy.
  assert (Sl : sorted l) by (apply (sorted_keys (t_map s1)); auto).
  assert (S2 : sorted (t_map s2)) by (apply (sorted_keys (t_map s1)); auto).
  unfold sample_both in Es. rewrite Fx, Fy in Es. destruct (traj_sample_as y x) as [c1|] eqn:E1; [|discriminate].
  destruct (traj_sample_as x y) as [c2|] eqn:E2; [|discriminate]. injection Es as -> ->.
  destruct (sample_as_refines _ _ _ Ox E1) as (m1 & -> & R1). destruct (sample_as_refines _ _ _ Oy E2) as (m2 & -> & R2). cbn [t_map] in *.
  assert (Dz : exists w, pl l t = Some w).
  { rewrite <- (map_of_traj l). apply dom_contains; auto. pose proof Oz as (_ & _ & D & _). rewrite map_of_traj in D.
    assert (t_dom (traj_map l) = t_dom x) as ->; auto. apply (smallest_uniq (is_key l)); auto. apply (smallest_ext (is_key m1)); auto.
    intros k. rewrite !is_key_fst, Kl. tauto. }
  destruct Dz as [w Hw]. rewrite !traj_at_pl, map_of_traj by auto. rewrite Hw.
  rewrite <- (pl_refines x m1 t Ox R1), <- (pl_refines y m2 t Oy R2).
  destruct (pl_split _ _ _ Sl Hw) as [Hi|(la & k1 & a & k2 & b & r & Em & Hk & Ew)].
  - destruct (Hl _ _ Hi) as (u & v & Hu & Hv & ->). exists u, v. rewrite (pl_key _ _ _ S Hu), (pl_key _ _ _ S2 Hv). auto.
  - destruct (split_keys la l m1 k1 a k2 b r Kl Em) as (l1 & a1 & b1 & r1 & Em1).
    destruct (split_keys la l m2 k1 a k2 b r (eq_trans Kl K) Em) as (l2 & a2 & b2 & r2 & Em2).
    rewrite (pl_seg m1 l1 k1 a1 k2 b1 r1 t S Em1), (pl_seg m2 l2 k1 a2 k2 b2 r2 t S2 Em2) by lra.
    eexists; eexists. split; [reflexivity|]. split; [reflexivity|]. f_equal. rewrite Ew.
    assert (Ia : a = op a1 a2).
    { destruct (Hl k1 a) as (u & v & Hu & Hv & ->); [rewrite Em; apply in_or_app; right; left; auto|].
      f_equal; [apply (sorted_inj m1 k1)|apply (sorted_inj m2 k1)]; auto; [rewrite Em1|rewrite Em2]; apply in_or_app; right; left; auto. }
    assert (Ib : b = op b1 b2).
    { destruct (Hl k2 b) as (u & v & Hu & Hv & ->); [rewrite Em; apply in_or_app; right; right; left; auto|].
      f_equal; [apply (sorted_inj m1 k2)|apply (sorted_inj m2 k2)]; auto; [rewrite Em1|rewrite Em2]; apply in_or_app; right; right; left; auto. }
    unfold lerp. cbn [fst snd]. rewrite Ia, Ib. destruct Hop as [-> | ->]; field; lra.
Qed.

(** Functions of one trajectory: at each sample the function of the value, same sample times. *)
Theorem C59_unary f x : traj_ok x -> exists z, traj_unary f x = Some z /\ traj_ok z /\ map fst (t_map z) = map fst (t_map x) /\
  forall k, is_key (t_map x) k -> exists u, traj_at x k = Some u /\ traj_at z k = Some (f u).
Proof.
  intros Hx. pose proof Hx as (Hf & Hs & _). unfold traj_unary. rewrite Hf. eexists. split; [reflexivity|].
  assert (Sm : sorted (map_vals f (t_map x))) by (apply (sorted_keys (t_map x)); auto; symmetry; apply map_vals_keys).
  pose proof (ok_map _ Sm) as Hz. split; auto. rewrite map_of_traj. split; [apply map_vals_keys|].
  intros k [u Hu]. exists u. rewrite !traj_at_pl, map_of_traj by auto. split; apply pl_key; auto.
  apply in_map_iff. exists (k, u). auto.
Qed.

(** The assignment operators with a trajectory, on a sampled left-hand side. *)
Theorem C59_assign_partial op y x z : traj_ok x -> operand y -> traj_assign op y x = Some z -> traj_ok z /\ pointwise op x y z.
Proof.
  intros Hx Hy H. destruct (assign_spec op y x z Hx Hy H) as (_ & Oz & _ & K & V). split; auto. split; auto.
  intros k [u Hu]. destruct (V _ _ Hu) as (v & w & Hv & Hw & ->). exists v, w. rewrite Hv, Hw. repeat split; auto.
  rewrite traj_at_pl by auto. apply pl_key; auto. apply Oz.
Qed.
(** atan2, min, max of two trajectories with the same sample times. *)
Theorem C59_function_partial op x y : traj_ok x -> traj_ok y -> map fst (t_map x) = map fst (t_map y) ->
  exists z, traj_binary_f op x y = Some z /\ traj_ok z /\ pointwise op x y z.
Proof.
  intros Hx Hy E. pose proof Hx as (Fx & Sx & Dx & _). pose proof Hy as (Fy & Sy & Dy & _).
  assert (Kxy : forall k, is_key (t_map x) k <-> is_key (t_map y) k) by (intros; rewrite !is_key_fst, E; tauto).
  assert (Ed : t_dom x = t_dom y).
  { apply (smallest_uniq (is_key (t_map x))); auto. apply (smallest_ext (is_key (t_map y))); auto. intros; symmetry; auto. }
  destruct (sample_both_def x y (fun _ => Hx) (fun _ => Hy) Ed (or_introl Fx)) as [p Ep].
  unfold traj_binary_f. rewrite Ed, itv_eqb_refl, Ep, Fx, Fy.
  destruct (zip_spec op _ _ E) as (l & -> & Kl & Hl). eexists. split; [reflexivity|].
  assert (Sl : sorted l) by (apply (sorted_keys (t_map x)); auto). pose proof (ok_map l Sl) as Oz. split; auto. split.
  - intros k. rewrite map_of_traj, is_key_fst, Kl, <- is_key_fst. unfold op_keys, sample_start. rewrite Fx, Fy, <- Kxy. tauto.
  - intros k. rewrite map_of_traj. intros [w Hw]. destruct (Hl _ _ Hw) as (u & v & Hu & Hv & ->). exists u, v.
    rewrite !traj_at_pl, map_of_traj by auto. repeat split; apply pl_key; auto.
Qed.

(** min of {0:0, 2:2} and {0:3, 1:-1, 2:3}: the value at time 2 is -1; with the arguments exchanged,
    the loop reads past the end of the second map. *)
Theorem C59_function_refuted : exists x y z, traj_ok x /\ traj_ok y /\ t_dom x = t_dom y /\ traj_binary_f Rmin x y = Some z /\
  ~ pointwise Rmin x y z /\ traj_at z 2 = Some (-1) /\ traj_at x 2 = Some 2 /\ traj_at y 2 = Some 3 /\
  traj_binary_f Rmin y x = None.
Proof.
  assert (Sx : sorted [(0, 0); (2, 2)]) by (repeat split; repeat (constructor; cbn; try lra)).
  assert (Sy : sorted [(0, 3); (1, -1); (2, 3)]) by (repeat split; repeat (constructor; cbn; try lra)).
  set (x := traj_map [(0, 0); (2, 2)]). set (y := traj_map [(0, 3); (1, -1); (2, 3)]).
  assert (Hx : traj_ok x) by (apply ok_map; auto). assert (Hy : traj_ok y) by (apply ok_map; auto).
  assert (Ed : t_dom x = t_dom y) by reflexivity.
  destruct (sample_both_def x y (fun _ => Hx) (fun _ => Hy) Ed (or_introl eq_refl)) as [p Ep].
  destruct (sample_both_def y x (fun _ => Hy) (fun _ => Hx) (eq_sym Ed) (or_introl eq_refl)) as [q Eq].
  exists x, y, (traj_map [(0, Rmin 0 3); (2, Rmin 2 (-1))]).
  assert (Sz : sorted [(0, Rmin 0 3); (2, Rmin 2 (-1))]) by (repeat split; repeat (constructor; cbn; try lra)).
  assert (A2 : traj_at (traj_map [(0, Rmin 0 3); (2, Rmin 2 (-1))]) 2 = Some (-1)).
  { rewrite traj_at_pl, map_of_traj by (apply ok_map; auto). rewrite (pl_key _ 2 (Rmin 2 (-1)) Sz) by (cbn; auto). f_equal. apply Rmin_right; lra. }
  assert (X2 : traj_at x 2 = Some 2) by (rewrite traj_at_pl by auto; unfold x; rewrite map_of_traj; apply pl_key; [auto|cbn; auto]).
  assert (Y2 : traj_at y 2 = Some 3) by (rewrite traj_at_pl by auto; unfold y; rewrite map_of_traj; apply pl_key; [auto|cbn; auto]).
  split; auto. split; auto. split; auto. split.
  { unfold traj_binary_f. rewrite Ed, itv_eqb_refl, Ep. reflexivity. }
  split; [|split; auto; split; auto; split; auto].
  - intros [K V]. destruct (V 2) as (u & v & Hu & Hv & Hw); [exists (Rmin 2 (-1)); right; left; auto|].
    rewrite X2 in Hu. rewrite Y2 in Hv. rewrite A2 in Hw. injection Hu as <-. injection Hv as <-. injection Hw as Hw. rewrite Rmin_left in Hw; lra.
  - unfold traj_binary_f. rewrite Ed, itv_eqb_refl, Eq. reflexivity.
Qed.

(** x += y with x(t) = t defined by a function on [0,2] and y = {0:1, 2:1}: x is not modified. *)
Theorem C59_assign_refuted : exists x y z, operand x /\ traj_ok y /\ t_dom x = t_dom y /\ traj_assign Rplus y x = Some z /\
  traj_at x 1 = Some 1 /\ traj_at y 1 = Some 1 /\ traj_at z 1 = Some 1.
Proof.
  set (f := mkF (fun t => t) (fun i => i)). set (x := traj_fun 0 2 f).
  assert (Sy : sorted [(0, 1); (2, 1)]) by (repeat split; repeat (constructor; cbn; try lra)).
  set (y := traj_map [(0, 1); (2, 1)]). assert (Hy : traj_ok y) by (apply ok_map; auto).
  assert (C : forall t, 0 <= t <= 2 -> contains (bnd 0 2) t = true) by (intros; apply contains_true, In_bnd; auto).
  assert (E : assign_loop Rplus x (t_map y) = Some [(0, 0 + 1); (2, 2 + 1)]).
  { unfold y. rewrite map_of_traj. cbn [assign_loop]. unfold traj_at, x, traj_fun. cbn [t_dom t_fun f_pt f].
    rewrite !C by lra. reflexivity. }
  exists x, y, (compute_codomain (mkT (t_dom x) (t_cod x) (t_fun x) [(0, 0 + 1); (2, 2 + 1)])).
  split; [intros H; discriminate|]. split; auto. split; auto. split.
  { unfold traj_assign. change (t_dom x) with (t_dom y). rewrite itv_eqb_refl. change (t_fun x) with (Some f). change (t_fun y) with (@None tfun). rewrite E. reflexivity. }
  unfold traj_at at 1 3, x, traj_fun. cbn [compute_codomain t_dom t_fun f_pt f]. rewrite !C by lra. split; auto. split; auto.
  rewrite traj_at_pl by auto. unfold y. rewrite map_of_traj. rewrite (pl_seg _ [] 0 1 2 1 [] 1 Sy eq_refl) by lra. unfold lerp. cbn. f_equal. field.
Qed.

Example C59_case : let x := traj_map mE in let y := traj_map [(0, 2); (2, 0); (3, 1)] in
  operand x /\ operand y /\ t_dom x = t_dom y /\ t_fun x = None.
Proof.
  cbn zeta. split; [intros _; apply ok_map, mE_sorted|]. split; [|split; reflexivity].
  intros _. apply ok_map. repeat split; repeat (constructor; cbn; try lra).
Qed.
Example C59_function_case : let x := traj_map mE in traj_ok x /\ map fst (t_map x) = map fst (t_map (traj_map [(0, 2); (1, 0); (3, 1)])).
Proof. cbn zeta. split; [apply ok_map, mE_sorted|reflexivity]. Qed.

Print Assumptions C59_binary.
Print Assumptions C59_unary.
Print Assumptions C59_assign_partial.
Print Assumptions C59_function_partial.
Print Assumptions C59_function_refuted.
Print Assumptions C59_assign_refuted.
