(** * Specification of differential constraints between trajectories *)
From Coq Require Import Reals Lra Bool List.
From Verif Require Import Itv.
Open Scope R_scope.

(** [f] is differentiable inside of [a,b], continuous on [a,b], and its derivative is [g] *)
Definition derivative_on (a b : R) (f g : R -> R) : Prop :=
  (forall t, a <= t <= b -> continuity_pt f t) /\
  (forall t, a < t < b -> derivable_pt_lim f t (g t)).

(** The mean slopes of [f] over [lb,ub] are in [V].  This is what a bound on the derivative gives,
    whatever the notion of derivative ([rises_of_derivative] below; a primitive of an integrable
    function also meets it, see Integral.v). *)
Definition rises (f : R -> R) (V : itv) (lb ub : R) : Prop :=
  forall t1 t2, lb <= t1 -> t1 < t2 -> t2 <= ub -> In ((f t2 - f t1) / (t2 - t1)) V.

Lemma rises_of_derivative a b f g V lb ub : derivative_on a b f g -> a <= lb -> ub <= b ->
  (forall t, lb < t < ub -> In (g t) V) -> rises f V lb ub.
Proof.
  intros [Hc Hd] Ha Hb HV t1 t2 H1 H2 H3.
  assert (pr1 : forall c, t1 < c < t2 -> derivable_pt f c).
  { intros c Hcc. exists (g c). apply Hd; lra. }
  assert (pr2 : forall c, t1 < c < t2 -> derivable_pt id c) by (intros; apply derivable_pt_id).
  destruct (MVT f id t1 t2 pr1 pr2 H2) as (c & P & E).
  - intros c Hcc; apply Hc; lra.
  - intros c _. apply derivable_continuous, derivable_id.
  - assert (derive_pt id c (pr2 c P) = 1) as E1.
    { rewrite (pr_nu id c (pr2 c P) (derivable_pt_id c)). apply derive_pt_id. }
    assert (derive_pt f c (pr1 c P) = g c) as E2.
    { apply derive_pt_eq_0. apply Hd; lra. }
    rewrite E1, E2 in E. unfold id in E.
    replace ((f t2 - f t1) / (t2 - t1)) with (g c) by (field_simplify_eq; lra).
    apply HV; lra.
Qed.

Lemma rises_sub f V lb ub lb' ub' : rises f V lb ub -> lb <= lb' -> ub' <= ub -> rises f V lb' ub'.
Proof. intros H H1 H2 t1 t2 L1 L2 L3. apply H; lra. Qed.
Lemma rises_mono f V V' lb ub : rises f V lb ub -> sub V V' -> rises f V' lb ub.
Proof. intros H H1 t1 t2 L1 L2 L3. apply H1, H; lra. Qed.

(** consequence used everywhere *)
Lemma rises_step f V lb ub t1 t2 : rises f V lb ub -> lb <= t1 -> t1 < t2 -> t2 <= ub ->
  exists p, In p V /\ f t2 = f t1 + (t2 - t1) * p.
Proof.
  intros H H1 H2 H3. exists ((f t2 - f t1) / (t2 - t1)). split; [apply H; auto|]. field; lra.
Qed.

(** The relation between a trajectory [f] and its derivative [g] that contractors rely on: over any
    part of [a,b] where [g] stays in [V], the mean slopes of [f] are in [V]. *)
Definition follows (a b : R) (f g : R -> R) : Prop :=
  forall V lb ub, a <= lb -> ub <= b -> (forall t, lb < t < ub -> In (g t) V) -> rises f V lb ub.
Lemma follows_derivative a b f g : derivative_on a b f g -> follows a b f g.
Proof. intros H V lb ub H1 H2 H3. eapply rises_of_derivative; eauto. Qed.
