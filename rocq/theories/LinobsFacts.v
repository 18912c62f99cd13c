(** * CtcLinobs: contracts of the operations and solutions of linear systems *)

From Coq Require Import Reals Lra Lia Bool List Arith.
Import ListNotations.
From Verif Require Import Itv Tube TubeSpec TubeFacts TubeOps TubeOpsFacts TubeCtc TubeQueries Arith DynSpec Linobs.
Open Scope R_scope.

(** ** Specification *)
(** product of a matrix and a vector *)
Definition mv (m : mat) (z : vec) : vec :=
  (fst (fst m) * fst z + snd (fst m) * snd z, fst (snd m) * fst z + snd (snd m) * snd z).
(** product of two matrices *)
Definition mm (m n : mat) : mat :=
  ((fst (fst m) * fst (fst n) + snd (fst m) * fst (snd n), fst (fst m) * snd (fst n) + snd (fst m) * snd (snd n)),
   (fst (snd m) * fst (fst n) + snd (snd m) * fst (snd n), fst (snd m) * snd (fst n) + snd (snd m) * snd (snd n))).
(** membership, componentwise *)
Definition vin (z : vec) (v : ivec) : Prop := In (fst z) (fst v) /\ In (snd z) (snd v).
Definition min_ (m : mat) (M : imat) : Prop := vin (fst m) (fst M) /\ vin (snd m) (snd M).
(** [f1], [f2] is a solution of x' = A x + b u over [a,b] *)
Definition lin_sol (A : mat) (b : vec) (a0 b0 : R) (f1 f2 u : R -> R) : Prop :=
  derivative_on a0 b0 f1 (fun t => fst (fst A) * f1 t + snd (fst A) * f2 t + fst b * u t) /\
  derivative_on a0 b0 f2 (fun t => fst (snd A) * f1 t + snd (snd A) * f2 t + snd b * u t).
(** [E] is the exponential of [A]: E(0) = I, E' = E A *)
Definition is_expo (A : mat) (E : R -> mat) : Prop :=
  E 0 = ((1, 0), (0, 1)) /\ forall s,
  derivable_pt_lim (fun s => fst (fst (E s))) s (fst (fst (mm (E s) A))) /\ derivable_pt_lim (fun s => snd (fst (E s))) s (snd (fst (mm (E s) A))) /\
  derivable_pt_lim (fun s => fst (snd (E s))) s (fst (snd (mm (E s) A))) /\ derivable_pt_lim (fun s => snd (snd (E s))) s (snd (snd (mm (E s) A))).
(** between 0 and [h], the exponential stays between its values at the two bounds, for [h] up to [H] *)
Definition between (H : R) (E : R -> mat) : Prop :=
  forall h s, 0 <= s <= h -> h <= H -> min_ (E s) (map2_mat hull (map_mat pt (E 0)) (map_mat pt (E h))).
(** what is asked to the polygons: their operations keep the points *)
Record poly_ok (Po : polys) (pin : vec -> po Po -> Prop) : Prop := {
  k_of_box : forall z v, vin z v -> pin z (p_of_box Po v);
  k_inter : forall z p q, pin z p -> pin z q -> pin z (p_inter Po p q);
  k_mul : forall m M z p, min_ m M -> pin z p -> pin (mv m z) (p_mul Po M p);
  k_add : forall z w p v, pin z p -> vin w v -> pin (fst z + fst w, snd z + snd w) (p_add Po p v);
  k_sub : forall z w p v, pin z p -> vin w v -> pin (fst z - fst w, snd z - snd w) (p_sub Po p v);
  k_simplify : forall z p, pin z p -> pin z (p_simplify Po p);
  k_box : forall z p, pin z p -> vin z (p_box Po p);
  k_wf : forall p, wf (fst (p_box Po p)) /\ wf (snd (p_box Po p)) }.

(** ** Flow *)
(** [T y(s)], where [y(s) = e1(t - s) f1(s) + e2(t - s) f2(s)], for a row [e1], [e2] of the exponential *)
Lemma row_flow A b a0 b0 f1 f2 u (e1 e2 : R -> R) r t T V :
  lin_sol A b a0 b0 f1 f2 u -> a0 <= r -> t <= b0 -> r < t ->
  (forall s, derivable_pt_lim e1 s (e1 s * fst (fst A) + e2 s * fst (snd A))) ->
  (forall s, derivable_pt_lim e2 s (e1 s * snd (fst A) + e2 s * snd (snd A))) ->
  (forall s, r < s < t -> In (T * e1 (t - s) * (u s * fst b) + T * e2 (t - s) * (u s * snd b)) V) -> T = t - r ->
  In (e1 0 * f1 t + e2 0 * f2 t - (e1 (t - r) * f1 r + e2 (t - r) * f2 r)) V.
Proof.
  intros [[C1 D1] [C2 D2]] Ha Hb Hrt De1 De2 HV HT.
  set (y := fun s => T * (e1 (t - s) * f1 s + e2 (t - s) * f2 s)).
  set (g := fun s => T * e1 (t - s) * (u s * fst b) + T * e2 (t - s) * (u s * snd b)).
  assert (Dsh : forall s, derivable_pt_lim (fun s => t - s) s (-1)).
  { intros s. replace (-1) with (0 - 1) by ring. apply (derivable_pt_lim_minus (fct_cte t) id); [apply derivable_pt_lim_const|apply derivable_pt_lim_id]. }
  assert (Dc : forall (e : R -> R) d s, derivable_pt_lim e (t - s) d -> derivable_pt_lim (fun s => e (t - s)) s (d * -1)).
  { intros e d s H. apply (derivable_pt_lim_comp (fun s => t - s) e s (-1) d); auto. }
  assert (Cc : forall (e : R -> R) s, (exists d, derivable_pt_lim e (t - s) d) -> continuity_pt (fun s => e (t - s)) s).
  { intros e s [d H]. apply derivable_continuous_pt. exists (d * -1). apply Dc. auto. }
  assert (Hy : derivative_on r t y g).
  { split.
    - intros s Hs. unfold y. apply (continuity_pt_mult (fct_cte T) (fun s => e1 (t - s) * f1 s + e2 (t - s) * f2 s)); [apply continuity_const; intros ? ?; reflexivity|].
      apply (continuity_pt_plus (fun s => e1 (t - s) * f1 s) (fun s => e2 (t - s) * f2 s)).
      + apply (continuity_pt_mult (fun s => e1 (t - s)) f1); [apply Cc; eexists; apply De1|apply C1; lra].
      + apply (continuity_pt_mult (fun s => e2 (t - s)) f2); [apply Cc; eexists; apply De2|apply C2; lra].
    - intros s Hs. unfold y, g.
      assert (S1 : a0 < s < b0) by lra. specialize (D1 s S1). specialize (D2 s S1).
      pose proof (Dc _ _ s (De1 (t - s))) as K1. pose proof (Dc _ _ s (De2 (t - s))) as K2.
      pose proof (derivable_pt_lim_mult _ _ _ _ _ K1 D1) as M1. pose proof (derivable_pt_lim_mult _ _ _ _ _ K2 D2) as M2.
      pose proof (derivable_pt_lim_plus _ _ _ _ _ M1 M2) as M3.
      pose proof (derivable_pt_lim_scal _ T _ _ M3) as M4. cbv beta in M4.
      match type of M4 with derivable_pt_lim _ _ ?l => replace l with (T * e1 (t - s) * (u s * fst b) + T * e2 (t - s) * (u s * snd b)) in M4 by ring end.
      exact M4. }
  pose proof (rises_of_derivative r t y g V r t Hy (Rle_refl _) (Rle_refl _) HV r t (Rle_refl _) Hrt (Rle_refl _)) as K.
  replace ((y t - y r) / (t - r)) with (e1 0 * f1 t + e2 0 * f2 t - (e1 (t - r) * f1 r + e2 (t - r) * f2 r)) in K; auto.
  unfold y. replace (t - t) with 0 by ring. rewrite HT. field. lra.
Qed.

(** backward: [y(s) = e1(s - r) f1(s) + e2(s - r) f2(s)], for a row of the exponential of [-A] *)
Lemma row_flow_back A b a0 b0 f1 f2 u (e1 e2 : R -> R) r t T V :
  lin_sol A b a0 b0 f1 f2 u -> a0 <= r -> t <= b0 -> r < t ->
  (forall s, derivable_pt_lim e1 s (- (e1 s * fst (fst A) + e2 s * fst (snd A)))) ->
  (forall s, derivable_pt_lim e2 s (- (e1 s * snd (fst A) + e2 s * snd (snd A)))) ->
  (forall s, r < s < t -> In (T * e1 (s - r) * (u s * fst b) + T * e2 (s - r) * (u s * snd b)) V) -> T = t - r ->
  In ((e1 (t - r) * f1 t + e2 (t - r) * f2 t) - (e1 0 * f1 r + e2 0 * f2 r)) V.
Proof.
  intros [[C1 D1] [C2 D2]] Ha Hb Hrt De1 De2 HV HT.
  set (y := fun s => T * (e1 (s - r) * f1 s + e2 (s - r) * f2 s)).
  set (g := fun s => T * e1 (s - r) * (u s * fst b) + T * e2 (s - r) * (u s * snd b)).
  assert (Dsh : forall s, derivable_pt_lim (fun s => s - r) s 1).
  { intros s. replace 1 with (1 - 0) by ring. apply (derivable_pt_lim_minus id (fct_cte r)); [apply derivable_pt_lim_id|apply derivable_pt_lim_const]. }
  assert (Dc : forall (e : R -> R) d s, derivable_pt_lim e (s - r) d -> derivable_pt_lim (fun s => e (s - r)) s (d * 1)).
  { intros e d s H. apply (derivable_pt_lim_comp (fun s => s - r) e s 1 d); auto. }
  assert (Cc : forall (e : R -> R) s, (exists d, derivable_pt_lim e (s - r) d) -> continuity_pt (fun s => e (s - r)) s).
  { intros e s [d H]. apply derivable_continuous_pt. exists (d * 1). apply Dc. auto. }
  assert (Hy : derivative_on r t y g).
  { split.
    - intros s Hs. unfold y. apply (continuity_pt_mult (fct_cte T) (fun s => e1 (s - r) * f1 s + e2 (s - r) * f2 s)); [apply continuity_const; intros ? ?; reflexivity|].
      apply (continuity_pt_plus (fun s => e1 (s - r) * f1 s) (fun s => e2 (s - r) * f2 s)).
      + apply (continuity_pt_mult (fun s => e1 (s - r)) f1); [apply Cc; eexists; apply De1|apply C1; lra].
      + apply (continuity_pt_mult (fun s => e2 (s - r)) f2); [apply Cc; eexists; apply De2|apply C2; lra].
    - intros s Hs. unfold y, g.
      assert (S1 : a0 < s < b0) by lra. specialize (D1 s S1). specialize (D2 s S1).
      pose proof (Dc _ _ s (De1 (s - r))) as K1. pose proof (Dc _ _ s (De2 (s - r))) as K2.
      pose proof (derivable_pt_lim_mult _ _ _ _ _ K1 D1) as M1. pose proof (derivable_pt_lim_mult _ _ _ _ _ K2 D2) as M2.
      pose proof (derivable_pt_lim_plus _ _ _ _ _ M1 M2) as M3.
      pose proof (derivable_pt_lim_scal _ T _ _ M3) as M4. cbv beta in M4.
      match type of M4 with derivable_pt_lim _ _ ?l => replace l with (T * e1 (s - r) * (u s * fst b) + T * e2 (s - r) * (u s * snd b)) in M4 by ring end.
      exact M4. }
  pose proof (rises_of_derivative r t y g V r t Hy (Rle_refl _) (Rle_refl _) HV r t (Rle_refl _) Hrt (Rle_refl _)) as K.
  replace ((y t - y r) / (t - r)) with ((e1 (t - r) * f1 t + e2 (t - r) * f2 t) - (e1 0 * f1 r + e2 0 * f2 r)) in K; auto.
  unfold y. replace (r - r) with 0 by ring. rewrite HT. field. lra.
Qed.

(** ** Enclosures *)
Lemma scal_mat_in Ar k K m M : arith_ok Ar -> In k K -> min_ m M -> min_ (map_mat (Rmult k) m) (scal_mat Ar K M).
Proof. intros HA Hk [[H1 H2] [H3 H4]]. repeat split; cbn; apply (imul_in _ HA); auto. Qed.
Lemma mat_vec_in Ar m M z v : arith_ok Ar -> min_ m M -> vin z v -> vin (mv m z) (mat_vec Ar M v).
Proof. intros HA [[H1 H2] [H3 H4]] [Z1 Z2]. split; cbn; apply (iadd_in _ HA); apply (imul_in _ HA); auto. Qed.
Lemma scal_vec_in Ar u U b : arith_ok Ar -> In u U -> vin (u * fst b, u * snd b) (scal_vec Ar U b).
Proof. intros HA H. split; cbn; apply (imul_in _ HA); auto; apply In_pt; auto. Qed.
Lemma exp_at_eq expo A lo hi : exp_at expo A lo hi = map2_mat hull (map_mat pt (expo A lo)) (map_mat pt (expo A hi)).
Proof. reflexivity. Qed.
Lemma exp_at_pt expo A t : min_ (expo A t) (exp_at expo A t t).
Proof. rewrite exp_at_eq. split; split; apply In_hull_l, In_pt; reflexivity. Qed.
Lemma exp_at_in expo A H h s : between H (expo A) -> 0 <= s <= h -> h <= H -> min_ (expo A s) (exp_at expo A 0 h).
Proof. intros B H1 H2. rewrite exp_at_eq. auto. Qed.

(** Variation of constants, over a part [r,t] of the domain where the input is in [U]. *)
Lemma flow Ar expo A b a0 b0 f1 f2 u U r t M K :
  arith_ok Ar -> is_expo A (expo A) -> lin_sol A b a0 b0 f1 f2 u -> a0 <= r -> r <= t -> t <= b0 ->
  (forall s, r <= s <= t -> In (u s) U) -> (forall s, 0 <= s <= t - r -> min_ (expo A s) M) -> In (t - r) K ->
  vin (f1 t - fst (mv (expo A (t - r)) (f1 r, f2 r)), f2 t - snd (mv (expo A (t - r)) (f1 r, f2 r)))
      (mat_vec Ar (scal_mat Ar K M) (scal_vec Ar U b)).
Proof.
  intros HA [E0 DE] HS Ha Hrt Hb HU HM HK.
  assert (W : forall s, r <= s <= t -> vin (mv (map_mat (Rmult (t - r)) (expo A (t - s))) (u s * fst b, u s * snd b)) (mat_vec Ar (scal_mat Ar K M) (scal_vec Ar U b))).
  { intros s Hs. apply mat_vec_in; auto; [apply scal_mat_in; auto; apply HM; lra|apply scal_vec_in; auto]. }
  destruct (Req_EM_T r t) as [->|Hne].
  - specialize (W t ltac:(lra)). replace (t - t) with 0 in W |- * by ring. rewrite E0 in *. unfold mv, vin in *. cbn in *.
    replace (f1 t - (1 * f1 t + 0 * f2 t)) with 0 by ring. replace (f2 t - (0 * f1 t + 1 * f2 t)) with 0 by ring.
    replace (0 * 1 * (u t * fst b) + 0 * 0 * (u t * snd b)) with 0 in W by ring. replace (0 * 0 * (u t * fst b) + 0 * 1 * (u t * snd b)) with 0 in W by ring. exact W.
  - split; cbn [fst snd].
    + pose proof (row_flow A b a0 b0 f1 f2 u (fun s => fst (fst (expo A s))) (fun s => snd (fst (expo A s))) r t (t - r) (fst (mat_vec Ar (scal_mat Ar K M) (scal_vec Ar U b)))
        HS Ha Hb ltac:(lra)) as F. cbv beta in F. rewrite E0 in F. cbn [fst snd] in F. replace (1 * f1 t + 0 * f2 t) with (f1 t) in F by ring.
      apply F; auto; [intros s; apply DE|intros s; apply DE|]. intros s Hs. destruct (W s ltac:(lra)) as [W1 _]. exact W1.
    + pose proof (row_flow A b a0 b0 f1 f2 u (fun s => fst (snd (expo A s))) (fun s => snd (snd (expo A s))) r t (t - r) (snd (mat_vec Ar (scal_mat Ar K M) (scal_vec Ar U b)))
        HS Ha Hb ltac:(lra)) as F. cbv beta in F. rewrite E0 in F. cbn [fst snd] in F. replace (0 * f1 t + 1 * f2 t) with (f2 t) in F by ring.
      apply F; auto; [intros s; apply DE|intros s; apply DE|]. intros s Hs. destruct (W s ltac:(lra)) as [_ W1]. exact W1.
Qed.
Lemma neg2 p q x y : p * - x + q * - y = - (p * x + q * y). Proof. ring. Qed.
Lemma flow_back Ar expo A b a0 b0 f1 f2 u U r t M K :
  arith_ok Ar -> is_expo (mneg A) (expo (mneg A)) -> lin_sol A b a0 b0 f1 f2 u -> a0 <= r -> r <= t -> t <= b0 ->
  (forall s, r <= s <= t -> In (u s) U) -> (forall s, 0 <= s <= t - r -> min_ (expo (mneg A) s) M) -> In (t - r) K ->
  vin (fst (mv (expo (mneg A) (t - r)) (f1 t, f2 t)) - f1 r, snd (mv (expo (mneg A) (t - r)) (f1 t, f2 t)) - f2 r)
      (mat_vec Ar (scal_mat Ar K M) (scal_vec Ar U b)).
Proof.
  intros HA [E0 DE] HS Ha Hrt Hb HU HM HK. set (E := expo (mneg A)) in *.
  assert (W : forall s, r <= s <= t -> vin (mv (map_mat (Rmult (t - r)) (E (s - r))) (u s * fst b, u s * snd b)) (mat_vec Ar (scal_mat Ar K M) (scal_vec Ar U b))).
  { intros s Hs. apply mat_vec_in; auto; [apply scal_mat_in; auto; apply HM; lra|apply scal_vec_in; auto]. }
  destruct (Req_EM_T r t) as [->|Hne].
  - specialize (W t ltac:(lra)). replace (t - t) with 0 in W |- * by ring. rewrite E0 in *. unfold mv, vin in *. cbn in *.
    replace (1 * f1 t + 0 * f2 t - f1 t) with 0 by ring. replace (0 * f1 t + 1 * f2 t - f2 t) with 0 by ring.
    replace (0 * 1 * (u t * fst b) + 0 * 0 * (u t * snd b)) with 0 in W by ring. replace (0 * 0 * (u t * fst b) + 0 * 1 * (u t * snd b)) with 0 in W by ring. exact W.
  - assert (Dn : forall e s d d', derivable_pt_lim e s d -> d = d' -> derivable_pt_lim e s d') by (intros; subst; auto).
    split; cbn [fst snd].
    + pose proof (row_flow_back A b a0 b0 f1 f2 u (fun s => fst (fst (E s))) (fun s => snd (fst (E s))) r t (t - r) (fst (mat_vec Ar (scal_mat Ar K M) (scal_vec Ar U b)))
        HS Ha Hb ltac:(lra)) as F. cbv beta in F. rewrite E0 in F. cbn [fst snd] in F. replace (1 * f1 r + 0 * f2 r) with (f1 r) in F by ring.
      apply F; auto.
      * intros s. eapply Dn; [apply DE|]. apply neg2.
      * intros s. eapply Dn; [apply DE|]. apply neg2.
      * intros s Hs. destruct (W s ltac:(lra)) as [W1 _]. exact W1.
    + pose proof (row_flow_back A b a0 b0 f1 f2 u (fun s => fst (snd (E s))) (fun s => snd (snd (E s))) r t (t - r) (snd (mat_vec Ar (scal_mat Ar K M) (scal_vec Ar U b)))
        HS Ha Hb ltac:(lra)) as F. cbv beta in F. rewrite E0 in F. cbn [fst snd] in F. replace (0 * f1 r + 1 * f2 r) with (f2 r) in F by ring.
      apply F; auto.
      * intros s. eapply Dn; [apply DE|]. apply neg2.
      * intros s. eapply Dn; [apply DE|]. apply neg2.
      * intros s Hs. destruct (W s ltac:(lra)) as [_ W1]. exact W1.
Qed.
