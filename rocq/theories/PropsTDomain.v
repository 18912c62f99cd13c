(** * codac2 temporal domains: partition, gates, sampling *)

From Coq Require Import Reals Lra Bool List Arith Lia.
Import ListNotations.
From Verif Require Import Itv Concrete Codac2.
Open Scope R_scope.

(** ** Specification *)
(** two consecutive TSlices share a bound, and are not both gates *)
Definition link (a b : tslice) : Prop :=
  (exists t, t_ub a = Some t /\ t_lb b = Some t) /\ ~ (is_gate a = true /\ is_gate b = true).
Fixpoint linked (d : list tslice) : Prop :=
  match d with a :: ((b :: _) as r) => link a b /\ linked r | _ => True end.
(** contiguous partition in non-empty TSlices *)
Definition partition (d : list tslice) : Prop :=
  d <> [] /\ (forall s, List.In s d -> exists t, In t (ts_t s)) /\ linked d.
(** [t] is a bound of a TSlice *)
Definition bound (d : list tslice) (t : R) : Prop := exists s, List.In s d /\ (t_lb s = Some t \/ t_ub s = Some t).
(** the trajectory [f] is in the tube *)
Definition traj_in (f : R -> R) (d : list tslice) : Prop := forall s t, List.In s d -> In t (ts_t s) -> In (f t) (ts_x s).

(** ** Facts on TSlices *)
Lemma ts_itv s : (exists t, In t (ts_t s)) ->
  ts_t s = Itv (t_lb s) (t_ub s) /\ (forall a b, t_lb s = Some a -> t_ub s = Some b -> a <= b).
Proof.
  unfold t_lb, t_ub. intros [t H]. destruct (ts_t s) as [|a b]; [destruct H|]. split; [reflexivity|].
  intros a' b' -> ->. cbn in H. lra.
Qed.
Lemma itv_ts a b x : match a, b with Some u, Some v => u <= v | _, _ => True end -> exists t, In t (ts_t (TS (Itv a b) x)).
Proof. intros H. apply (wf_witness (Itv a b)); [destruct a, b; exact H|discriminate]. Qed.
Lemma in_ts s t : (exists t, In t (ts_t s)) -> (In t (ts_t s) <-> lo_le (t_lb s) t /\ le_hi t (t_ub s)).
Proof. intros H. destruct (ts_itv s H) as [E _]. rewrite E at 1. cbn. reflexivity. Qed.
Lemma gate_true s : (exists t, In t (ts_t s)) -> (is_gate s = true <-> exists a, t_lb s = Some a /\ t_ub s = Some a).
Proof.
  intros H. destruct (ts_itv s H) as [E _]. unfold is_gate. rewrite E. cbn. destruct (t_lb s) as [a|], (t_ub s) as [b|]; cbn.
  - rewrite Reqb_true. split; [intros ->; exists b; auto|]. intros (c & [= ->] & [= ->]). reflexivity.
  - split; [discriminate|]. intros (c & _ & [=]).
  - split; [discriminate|]. intros (c & [=] & _).
  - split; [discriminate|]. intros (c & [=] & _).
Qed.
Lemma opt_eqb_true a b : opt_eqb a b = true <-> a = b.
Proof.
  destruct a as [a|], b as [b|]; cbn; try (split; congruence). rewrite Reqb_true. split; [intros ->; reflexivity|congruence].
Qed.
Lemma opt_eqb_false a b : opt_eqb a b = false <-> a <> b.
Proof. rewrite <- opt_eqb_true. destruct (opt_eqb a b); split; congruence. Qed.
Lemma lo_leb_r_true l t : lo_leb_r l t = true <-> lo_le l t.
Proof. destruct l; cbn; [apply Rleb_true|tauto]. Qed.
Lemma at_true s t : (exists t, In t (ts_t s)) ->
  (ts_at s t = true <-> (is_gate s = true /\ t_lb s = Some t) \/ (lo_le (t_lb s) t /\ match t_ub s with Some u => t < u | None => True end)).
Proof.
  intros H. unfold ts_at. destruct (ts_itv s H) as [E _]. rewrite orb_true_iff, !andb_true_iff, opt_eqb_true, lo_leb_r_true.
  assert (U : ub_gt (ts_t s) t = true <-> match t_ub s with Some u => t < u | None => True end).
  { rewrite E. cbn. destruct (t_ub s); [apply Rltb_true|tauto]. }
  rewrite U. reflexivity.
Qed.
Lemma at_in s t : (exists t, In t (ts_t s)) -> ts_at s t = true -> In t (ts_t s).
Proof.
  intros H A. apply (at_true s t H) in A. apply in_ts; [exact H|]. destruct A as [[G L]|[L U]].
  - apply (gate_true s H) in G as (a & E1 & E2). rewrite E1 in *. rewrite E2. injection L as ->. cbn. lra.
  - split; [exact L|]. destruct (t_ub s); cbn; [lra|exact I].
Qed.

(** ** Facts on linked lists *)
Lemma linked_app l a r : linked (l ++ a :: r) <-> linked (l ++ [a]) /\ linked (a :: r).
Proof.
  induction l as [|b l IH]; [cbn; tauto|]. destruct l as [|c l].
  - cbn. tauto.
  - cbn [app linked] in *. rewrite IH. tauto.
Qed.
Lemma rev_append_app {A} (rl l : list A) : rev_append rl l = rev rl ++ l.
Proof. apply rev_append_rev. Qed.
Lemma linked_same l a b : (t_lb a = t_lb b) -> (is_gate b = true -> match rev l with p :: _ => is_gate p = false | [] => True end) ->
  linked (l ++ [a]) -> linked (l ++ [b]).
Proof.
  intros E G. induction l as [|c l IH]; [cbn; auto|]. destruct l as [|c' l].
  - cbn. intros [[T N] _]. split; [|exact I]. split; [rewrite <- E; exact T|]. intros [G1 G2]. specialize (G G2). cbn in G. congruence.
  - cbn [app linked] in *. intros [L1 L2]. split; [exact L1|]. apply IH; [|exact L2].
    intros Gb. specialize (G Gb). cbn [rev] in G. cbn [rev]. destruct (rev l ++ [c']) eqn:X; [destruct (rev l); discriminate X|].
    cbn in G. exact G.
Qed.
(** the TSlices are ordered *)
Lemma linked_before l s r p : (forall s1, List.In s1 (l ++ s :: r) -> exists t, In t (ts_t s1)) -> linked (l ++ s :: r) -> List.In p l ->
  exists u v, t_ub p = Some u /\ t_lb s = Some v /\ u <= v.
Proof.
  revert p. induction l as [|a l IH]; intros p N L P; [destruct P|]. destruct P as [<-|P].
  - destruct l as [|b l].
    + cbn in L. destruct L as [[(t & T1 & T2) _] _]. exists t, t. repeat split; try assumption. lra.
    + cbn [app linked] in L. destruct L as [[(t & T1 & T2) _] L].
      destruct (IH b) as (u & v & U & V & W); [intros s' S'; apply N; right; exact S'|exact L|left; reflexivity|].
      exists t, v. refine (conj T1 (conj V _)). destruct (ts_itv b) as [_ B]; [apply N; right; left; reflexivity|].
      specialize (B t u T2 U). lra.
  - destruct l as [|b l]; [destruct P|]. cbn [app linked] in L. destruct L as [_ L].
    apply (IH p); [intros s' S'; apply N; right; exact S'|exact L|exact P].
Qed.
Lemma linked_after l s r p : (forall s1, List.In s1 (l ++ s :: r) -> exists t, In t (ts_t s1)) -> linked (l ++ s :: r) -> List.In p r ->
  exists u v, t_ub s = Some u /\ t_lb p = Some v /\ u <= v.
Proof.
  intros N L P. apply in_split in P as (r1 & r2 & ->).
  apply (linked_before (l ++ s :: r1) p r2 s).
  - intros x X. apply N. rewrite <- app_assoc in X. exact X.
  - rewrite <- app_assoc. exact L.
  - apply in_app_iff. right. left. reflexivity.
Qed.
Lemma d_ub_app l s r : d_ub (l ++ s :: r) = d_ub (s :: r).
Proof.
  unfold d_ub. rewrite rev_app_distr. destruct (rev (s :: r)) as [|x y] eqn:E; [|reflexivity].
  cbn in E. destruct (rev r); discriminate.
Qed.
Lemma d_ub_last l s : d_ub (l ++ [s]) = t_ub s.
Proof. rewrite d_ub_app. reflexivity. Qed.

(** the search *)
Lemma find_ts_spec t r : forall rl s, (forall s', List.In s' (s :: r) -> exists t, In t (ts_t s')) -> linked (s :: r) -> lo_le (t_lb s) t ->
  let '(rl', s', r') := find_ts t rl s r in
  rev rl' ++ s' :: r' = rev rl ++ s :: r /\ lo_le (t_lb s') t /\
  (forall p, List.In p rl' -> List.In p rl \/ ts_at p t = false) /\
  (ts_at s' t = true \/ (r' = [] /\ ts_at s' t = false /\ exists u, t_ub s' = Some u /\ u <= t)).
Proof.
  induction r as [|b r IH]; intros rl s N L B; cbn [find_ts]; destruct (ts_at s t) eqn:E.
  - refine (conj eq_refl (conj B (conj _ (or_introl E)))). auto.
  - refine (conj eq_refl (conj B (conj _ (or_intror (conj eq_refl (conj E _)))))); [auto|].
    assert (Ns : exists t, In t (ts_t s)) by (apply N; left; reflexivity).
    destruct (t_ub s) as [u|] eqn:U; [|exfalso].
    + exists u. split; [reflexivity|]. apply Rnot_lt_le. intro H. rewrite <- not_true_iff_false in E. apply E.
      apply (at_true s t Ns). right. rewrite U. auto.
    + rewrite <- not_true_iff_false in E. apply E. apply (at_true s t Ns). right. rewrite U. auto.
  - refine (conj eq_refl (conj B (conj _ (or_introl E)))). auto.
  - assert (Ns : exists t, In t (ts_t s)) by (apply N; left; reflexivity). cbn [linked] in L. destruct L as [[(u & U1 & U2) _] L].
    assert (B' : lo_le (t_lb b) t).
    { rewrite U2. cbn. apply Rnot_lt_le. intro H. rewrite <- not_true_iff_false in E. apply E. apply (at_true s t Ns). right. rewrite U1. auto. }
    specialize (IH (s :: rl) b (fun s' S' => N s' (or_intror S')) L B'). destruct (find_ts t (s :: rl) b r) as [[rl' s'] r'].
    destruct IH as (I1 & I2 & I3 & I4). refine (conj _ (conj I2 (conj _ I4))).
    + rewrite I1. cbn [rev]. rewrite <- app_assoc. reflexivity.
    + intros p P. destruct (I3 p P) as [[<-|Q]|Q]; auto.
Qed.

(** ** Sampling *)
Definition ext (t : R) (d d' : list tslice) : Prop :=
  partition d' /\ (forall r, bound d r -> bound d' r) /\ (forall f, traj_in f d <-> traj_in f d') /\
  t0_tf d' = hull (t0_tf d) (pt t).
Definition good (t : R) (g : bool) (d : list tslice) (it : iter) : Prop :=
  let '(rl, s, r) := it in
  ext t d (rev rl ++ s :: r) /\ bound (rev rl ++ s :: r) t /\ In t (ts_t s) /\ (g = true -> is_gate s = true).
Lemma hull_pt_pt i t : hull (hull i (pt t)) (pt t) = hull i (pt t).
Proof.
  destruct i as [|[a|] [b|]]; cbn; rewrite ?Rmin_assoc, ?Rmax_assoc, ?(Rmin_left t t), ?(Rmax_left t t) by lra; try reflexivity.
  - rewrite (Rmin_left (Rmin a t) t) by apply Rmin_r. rewrite (Rmax_left (Rmax b t) t) by apply Rmax_r. reflexivity.
  - rewrite (Rmin_left (Rmin a t) t) by apply Rmin_r. reflexivity.
  - rewrite (Rmax_left (Rmax b t) t) by apply Rmax_r. reflexivity.
Qed.
Lemma good_trans t g d d' it : ext t d d' -> good t g d' it -> good t g d it.
Proof.
  destruct it as [[rl s] r]. intros (P1 & B1 & T1 & H1) ((P2 & B2 & T2 & H2) & G). split; [|exact G].
  refine (conj P2 (conj _ (conj _ _))); [auto|intros f; rewrite T1; apply T2|rewrite H2, H1; apply hull_pt_pt].
Qed.
Lemma hull_in i t : In t i -> hull i (pt t) = i.
Proof.
  intros H. destruct i as [|[l|] [u|]]; [destruct H|..]; cbn in *; rewrite ?Rmin_left, ?Rmax_left by tauto; reflexivity.
Qed.
Lemma ext_refl t d : partition d -> In t (t0_tf d) -> ext t d d.
Proof.
  intros P H. refine (conj P (conj _ (conj _ _))); [auto|tauto|]. symmetry. apply hull_in, H.
Qed.
Lemma bound_app l s r t : bound (l ++ s :: r) t <-> bound l t \/ (t_lb s = Some t \/ t_ub s = Some t) \/ bound r t.
Proof.
  unfold bound. split.
  - intros (x & X & B). apply in_app_iff in X as [X|[<-|X]]; [left|right; left|right; right]; eauto.
  - intros [(x & X & B)|[B|(x & X & B)]]; [exists x|exists s|exists x]; (split; [apply in_app_iff|exact B]); cbn; auto.
Qed.
Lemma traj_app f l s r : traj_in f (l ++ s :: r) <-> traj_in f l /\ (forall t, In t (ts_t s) -> In (f t) (ts_x s)) /\ traj_in f r.
Proof.
  unfold traj_in. split.
  - intros H. refine (conj _ (conj _ _)).
    + intros x t X. apply H. apply in_app_iff. auto.
    + intros t. apply H. apply in_app_iff. cbn. auto.
    + intros x t X. apply H. apply in_app_iff. cbn. auto.
  - intros (H1 & H2 & H3) x t X. apply in_app_iff in X as [X|[<-|X]]; auto.
Qed.
Lemma list_eq_dec_nil (r : list tslice) : r = [] \/ exists r1 z, r = r1 ++ [z].
Proof. destruct r as [|c r]; [auto|]. right. destruct (exists_last (l := c :: r) ltac:(discriminate)) as (r1 & z & E). eauto. Qed.
Lemma lb_split l s r : d_lb (l ++ s :: r) = match l with [] => t_lb s | p :: _ => t_lb p end.
Proof. destruct l; reflexivity. Qed.
Lemma in_dom t l s r : partition (l ++ s :: r) -> In t (ts_t s) -> In t (t0_tf (l ++ s :: r)).
Proof.
  intros (P1 & P2 & P3) Ht. assert (Ns : exists t, In t (ts_t s)) by eauto. apply (in_ts s t Ns) in Ht as [L U].
  unfold t0_tf. cbn [In]. rewrite lb_split. split.
  - destruct l as [|p l]; [exact L|]. destruct (linked_before (p :: l) s r p P2 P3 ltac:(left; reflexivity)) as (u & v & U1 & V1 & W).
    rewrite V1 in L. cbn in L. destruct (ts_itv p) as [_ Op]; [apply P2; cbn; auto|]. destruct (t_lb p) as [w|] eqn:Wp; [|exact I].
    cbn. specialize (Op w u eq_refl U1). lra.
  - destruct (list_eq_dec_nil r) as [->|(r1 & z & ->)]; [rewrite d_ub_last; exact U|].
    destruct (linked_after l s (r1 ++ [z]) z P2 P3 ltac:(apply in_app_iff; right; left; reflexivity)) as (u & v & U1 & V1 & W).
    change (s :: r1 ++ [z]) with ((s :: r1) ++ [z]) in *. rewrite app_assoc, d_ub_last.
    rewrite U1 in U. cbn in U. destruct (ts_itv z) as [_ Oz]; [apply P2; apply in_app_iff; right; apply in_app_iff; right; left; reflexivity|].
    destruct (t_ub z) as [w|] eqn:Wz; [|exact I]. cbn. specialize (Oz v w V1 eq_refl). lra.
Qed.
(** a slice is divided in two at [t] *)
Lemma split_ext t l s r :
  let a := TS (Itv (t_lb s) (Some t)) (ts_x s) in let b := TS (Itv (Some t) (t_ub s)) (ts_x s) in
  partition (l ++ s :: r) -> In t (ts_t s) -> is_gate s = false ->
  (is_gate a = true -> match rev l with p :: _ => is_gate p = false | [] => True end) ->
  (is_gate b = true -> r = []) -> ext t (l ++ s :: r) (l ++ a :: b :: r).
Proof.
  intros a b (P1 & P2 & P3) Ht Gs Ga Gb. assert (Ns : exists t, In t (ts_t s)) by eauto.
  destruct (ts_itv s Ns) as [Es Os]. pose proof Ht as Ht'. apply (in_ts s t Ns) in Ht' as [L U].
  assert (Na : exists t, In t (ts_t a)). { apply itv_ts. destruct (t_lb s); [exact L|exact I]. }
  assert (Nb : exists t, In t (ts_t b)). { apply itv_ts. destruct (t_ub s); [exact U|exact I]. }
  refine (conj (conj _ (conj _ _)) (conj _ (conj _ _))).
  - destruct l; discriminate.
  - intros x X. apply in_app_iff in X as [X|[<-|[<-|X]]]; [apply P2; apply in_app_iff; auto|exact Na|exact Nb|apply P2; apply in_app_iff; cbn; auto].
  - apply linked_app in P3 as [L1 L2]. apply linked_app. split; [apply (linked_same l s a); [reflexivity|exact Ga|exact L1]|].
    cbn [linked]. split.
    + split; [exists t; auto|]. intros [G1 G2]. apply (gate_true a Na) in G1 as (x & X1 & X2). apply (gate_true b Nb) in G2 as (y & Y1 & Y2).
      cbn in X1, X2, Y1, Y2. rewrite <- not_true_iff_false in Gs. apply Gs. apply (gate_true s Ns). exists t. split; congruence.
    + destruct r as [|c r]; [exact I|]. cbn [linked] in L2 |- *. destruct L2 as [[(u & U1 & U2) _] L2]. split; [|exact L2].
      split; [exists u; auto|]. intros [G _]. specialize (Gb G). discriminate.
  - intros x. rewrite !bound_app. cbn [t_lb t_ub ts_t a b]. assert (E : forall y, bound (b :: r) y <-> (Some t = Some y \/ t_ub s = Some y) \/ bound r y).
    { intros y. change (b :: r) with ([] ++ b :: r). rewrite bound_app. cbn. unfold bound at 1. firstorder. }
    rewrite E. tauto.
  - intros f. rewrite !traj_app. assert (E : traj_in f (b :: r) <-> (forall y, In y (ts_t b) -> In (f y) (ts_x b)) /\ traj_in f r).
    { change (b :: r) with ([] ++ b :: r). rewrite traj_app. split; [tauto|]. intros H. split; [intros x y []|exact H]. }
    rewrite E. cbn [ts_x a b]. assert (Q : (forall y, In y (ts_t s) -> In (f y) (ts_x s)) <->
      (forall y, In y (ts_t a) -> In (f y) (ts_x s)) /\ (forall y, In y (ts_t b) -> In (f y) (ts_x s))).
    { split.
      - intros H. split; intros y Y; apply H; rewrite Es; cbn in Y |- *; split; try tauto.
        + destruct (t_ub s); cbn in *; [lra|exact I].
        + destruct (t_lb s); cbn in *; [lra|exact I].
      - intros [H1 H2] y Y. rewrite Es in Y. destruct (Rle_lt_dec y t); [apply H1|apply H2]; cbn in *; split; try tauto; lra. }
    rewrite Q. tauto.
  - replace (t0_tf (l ++ a :: b :: r)) with (t0_tf (l ++ s :: r)).
    + symmetry. apply hull_in. apply in_dom; [exact (conj P1 (conj P2 P3))|exact Ht].
    + unfold t0_tf. rewrite !lb_split, !d_ub_app. f_equal.
      destruct r as [|c r]; [reflexivity|]. change (s :: c :: r) with ([s] ++ c :: r). change (a :: b :: c :: r) with ([a; b] ++ c :: r).
      rewrite !d_ub_app. reflexivity.
Qed.
(** the slice of an instant *)
Lemma iterator_spec t d : partition d -> In t (t0_tf d) -> exists rl s r, iterator_tslice t d = Some (rl, s, r) /\
  d = rev rl ++ s :: r /\ In t (ts_t s) /\ (forall p, List.In p rl -> ts_at p t = false) /\
  (ts_at s t = true \/ (r = [] /\ ts_at s t = false /\ t_ub s = Some t /\ is_gate s = false)).
Proof.
  intros (P1 & P2 & P3) H. destruct d as [|s0 r0]; [congruence|]. unfold iterator_tslice.
  pose proof H as C. apply contains_true in C. rewrite C. assert (B : lo_le (t_lb s0) t) by apply H.
  pose proof (find_ts_spec t r0 [] s0 P2 P3 B) as F. destruct (find_ts t [] s0 r0) as [[rl s] r]. destruct F as (F1 & F2 & F3 & F4).
  cbn [rev app] in F1. exists rl, s, r. refine (conj eq_refl (conj (eq_sym F1) _)).
  assert (Ns : exists t, In t (ts_t s)) by (apply P2; rewrite <- F1; apply in_app_iff; right; left; reflexivity).
  assert (F3' : forall p, List.In p rl -> ts_at p t = false) by (intros p Pp; destruct (F3 p Pp) as [[]|Q]; exact Q).
  destruct F4 as [F4|(-> & F4 & u & U1 & U2)].
  - refine (conj (at_in s t Ns F4) (conj F3' (or_introl F4))).
  - assert (U : t_ub s = Some t).
    { destruct H as [_ H]. rewrite <- F1, d_ub_last, U1 in H. cbn in H. rewrite U1. f_equal. lra. }
    refine (conj _ (conj F3' (or_intror (conj eq_refl (conj F4 (conj U _)))))).
    + apply (in_ts s t Ns). rewrite U. cbn. split; [exact F2|lra].
    + destruct (is_gate s) eqn:G; [|reflexivity]. exfalso. apply (gate_true s Ns) in G as (a & A1 & A2).
      rewrite <- not_true_iff_false in F4. apply F4. apply (at_true s t Ns). left. split; [apply (gate_true s Ns); eauto|congruence].
Qed.
Lemma dom_ordered d l u : partition d -> d_lb d = Some l -> d_ub d = Some u -> l <= u.
Proof.
  intros P L U. pose proof P as (P1 & P2 & P3). destruct d as [|s r]; [congruence|].
  destruct (P2 s ltac:(left; reflexivity)) as [x X]. pose proof (in_dom x [] s r P X) as D. unfold t0_tf in D. cbn [app] in D.
  rewrite L, U in D. cbn in D. lra.
Qed.
Lemma traj_cons f s r : traj_in f (s :: r) <-> (forall t, In t (ts_t s) -> In (f t) (ts_x s)) /\ traj_in f r.
Proof. change (s :: r) with ([] ++ s :: r). rewrite traj_app. split; [tauto|]. intros H. split; [intros x t []|exact H]. Qed.
Lemma prepend_ext t d l : partition d -> d_lb d = Some l -> t <= l -> (t = l -> match d with s :: _ => is_gate s = false | [] => True end) ->
  ext t d (TS (Itv (Some t) (Some l)) ALL :: d).
Proof.
  intros P L T G. pose proof P as (P1 & P2 & P3). destruct d as [|s r]; [congruence|].
  assert (N : exists x, In x (ts_t (TS (Itv (Some t) (Some l)) ALL))) by (apply itv_ts; exact T).
  refine (conj (conj _ (conj _ _)) (conj _ (conj _ _))).
  - discriminate.
  - intros x [<-|X]; [exact N|apply P2, X].
  - change (link (TS (Itv (Some t) (Some l)) ALL) s /\ linked (s :: r)). split; [|exact P3]. split; [exists l; auto|].
    intros [G1 G2]. apply (gate_true _ N) in G1 as (a & A1 & A2). cbn in A1, A2. injection A1 as A1. injection A2 as A2.
    rewrite G in G2 by congruence. discriminate.
  - intros x (y & Y & B). exists y. split; [right; exact Y|exact B].
  - intros f. rewrite (traj_cons f _ (s :: r)). split; [|tauto]. intros H. split; [|exact H]. intros; apply In_ALL.
  - unfold t0_tf. change (d_lb (TS (Itv (Some t) (Some l)) ALL :: s :: r)) with (Some t).
    change (TS (Itv (Some t) (Some l)) ALL :: s :: r) with ([TS (Itv (Some t) (Some l)) ALL] ++ s :: r). rewrite d_ub_app, L. cbn [hull pt min_lo].
    rewrite Rmin_right by exact T. f_equal. destruct (d_ub (s :: r)) as [u|] eqn:U; [|reflexivity]. cbn. rewrite Rmax_left; [reflexivity|].
    pose proof (dom_ordered _ _ _ P L U). lra.
Qed.
Lemma linked_snoc d z : linked d -> match rev d with p :: _ => link p z | [] => True end -> linked (d ++ [z]).
Proof.
  induction d as [|a d IH]; [cbn; auto|]. intros L K. destruct d as [|b d].
  - cbn in *. auto.
  - cbn [app linked] in L |- *. destruct L as [L1 L]. split; [exact L1|]. apply IH; [exact L|].
    cbn [rev] in K |- *. destruct (rev d ++ [b]) eqn:E; [destruct (rev d); discriminate|]. exact K.
Qed.
Lemma append_ext t d u : partition d -> d_ub d = Some u -> u < t -> ext t d (d ++ [TS (Itv (Some u) (Some t)) ALL]).
Proof.
  intros P U T. pose proof P as (P1 & P2 & P3).
  assert (N : exists x, In x (ts_t (TS (Itv (Some u) (Some t)) ALL))) by (apply itv_ts; lra).
  refine (conj (conj _ (conj _ _)) (conj _ (conj _ _))).
  - destruct d; discriminate.
  - intros x X. apply in_app_iff in X as [X|[<-|[]]]; [apply P2, X|exact N].
  - apply linked_snoc; [exact P3|]. unfold d_ub in U. destruct (rev d) as [|p q]; [exact I|]. split; [exists u; auto|].
    intros [_ G]. apply (gate_true _ N) in G as (a & A1 & A2). cbn in A1, A2. injection A1 as A1. injection A2 as A2. lra.
  - intros x (y & Y & B). exists y. split; [apply in_app_iff; auto|exact B].
  - intros f. rewrite traj_app. split; [|tauto]. intros H. refine (conj H (conj _ _)); [intros; apply In_ALL|intros x y []].
  - unfold t0_tf. rewrite d_ub_last. destruct d as [|s r]; [congruence|]. change (d_lb ((s :: r) ++ [TS (Itv (Some u) (Some t)) ALL])) with (d_lb (s :: r)).
    rewrite U. cbn [hull pt max_hi t_ub ts_t]. rewrite Rmax_right by lra. f_equal. destruct (d_lb (s :: r)) as [l|] eqn:L; [|reflexivity]. cbn.
    rewrite Rmin_left; [reflexivity|]. pose proof (dom_ordered _ _ _ P L U). lra.
Qed.

(** one step of the recursion *)
Lemma sample_S n g t d : sample (S n) g t d =
    (match d with
      | [] => None
      | s0 :: r0 =>
          if (match d_lb d with Some l => Rleb t l | None => false end) then
            if is_gate s0 && opt_eqb (t_lb s0) (Some t) then Some ([], s0, r0)
            else
              let ts := TS (Itv (Some t) (d_lb d)) ALL in
              if g then (if is_gate ts then Some ([], ts, d) else sample n g t (ts :: d))
              else Some ([], ts, d)
          else if (match d_ub d with Some u => Rltb u t | None => false end) then
            let ts := TS (Itv (d_ub d) (Some t)) ALL in
            if g then sample n g t (d ++ [ts]) else Some (rev d, ts, [])
          else
            match iterator_tslice t d with
            | None => None
            | Some (rl, s, r) =>
                if is_gate s || (negb g && (opt_eqb (t_lb s) (Some t) || opt_eqb (Some t) (d_ub d))) then Some (rl, s, r)
                else
                  let a := TS (Itv (t_lb s) (Some t)) (ts_x s) in
                  let b := TS (Itv (Some t) (t_ub s)) (ts_x s) in
                  if is_gate a then Some (rl, a, b :: r)
                  else if g then sample n g t (rev_append rl (a :: b :: r))
                  else Some (a :: rl, b, r)
            end
      end).
Proof. reflexivity. Qed.
(** one call, when [t] is already the lower bound of a TSlice *)
Lemma sample_bound n g t d : partition d -> (exists s, List.In s d /\ t_lb s = Some t) -> exists it, sample (S n) g t d = Some it /\ good t g d it.
Proof.
  intros P (s & S & Ls). pose proof P as (P1 & P2 & P3). destruct d as [|s0 r0]; [congruence|]. cbn [sample].
  set (d := s0 :: r0) in *.
  destruct (in_split s d S) as (l1 & l2 & Ed).
  assert (Ns : exists x, In x (ts_t s)) by (apply P2, S).
  assert (Ins : In t (ts_t s)).
  { apply (in_ts s t Ns). rewrite Ls. cbn. split; [lra|]. destruct (ts_itv s Ns) as [_ O]. destruct (t_ub s) as [u|]; [|exact I]. cbn. apply O; auto. }
  assert (Dom : In t (t0_tf d)) by (rewrite Ed; apply in_dom; [rewrite <- Ed; exact P|exact Ins]).
  destruct (match d_lb d with Some l => Rleb t l | None => false end) eqn:Lo.
  - (* first TSlice *)
    destruct (d_lb d) as [l|] eqn:Lb; [|discriminate]. apply Rleb_true in Lo.
    assert (t = l) as <-. { destruct Dom as [D _]. rewrite Lb in D. cbn in D. lra. }
    change (d_lb d) with (t_lb s0) in Lb. assert (N0 : exists x, In x (ts_t s0)) by (apply P2; left; reflexivity).
    destruct (is_gate s0 && opt_eqb (t_lb s0) (Some t)) eqn:G0.
    + apply andb_true_iff in G0 as [G0 _]. eexists. split; [reflexivity|]. refine (conj _ (conj _ (conj _ _))).
      * apply ext_refl; assumption.
      * exists s0. split; [left; reflexivity|left; exact Lb].
      * apply (in_ts s0 t N0). apply (gate_true s0 N0) in G0 as (a & A1 & A2). rewrite A1, A2. assert (a = t) as -> by congruence. cbn. lra.
      * auto.
    + set (ts := TS (Itv (Some t) (Some t)) ALL).
      assert (Gts : is_gate ts = true) by (unfold is_gate, ts; cbn; apply Reqb_refl).
      assert (E : ext t d (ts :: d)).
      { apply prepend_ext; [exact P|exact Lb|lra|]. intros _. cbn. rewrite Lb, (proj2 (opt_eqb_true (Some t) (Some t)) eq_refl), andb_true_r in G0. exact G0. }
      assert (Gd : good t g d ([], ts, d)).
      { refine (conj E (conj _ (conj _ _))); [exists ts; split; [left; reflexivity|left; reflexivity]|cbn; lra|auto]. }
      rewrite Gts. destruct g; eauto.
  - (* inside *)
    assert (Hi : match d_ub d with Some u => Rltb u t | None => false end = false).
    { destruct (d_ub d) as [u|] eqn:U; [|reflexivity]. apply Rltb_false. destruct Dom as [_ D]. rewrite U in D. exact D. }
    rewrite Hi. destruct (iterator_spec t d P Dom) as (rl & s' & r & Ei & Ed' & In' & Nm & M). rewrite Ei.
    assert (N' : exists x, In x (ts_t s')) by eauto.
    destruct (is_gate s' || (negb g && (opt_eqb (t_lb s') (Some t) || opt_eqb (Some t) (d_ub d)))) eqn:C.
    + eexists. split; [reflexivity|]. unfold good. rewrite <- Ed'. refine (conj _ (conj _ (conj In' _))).
      * apply ext_refl; assumption.
      * exists s. auto.
      * intros ->. cbn in C. rewrite orb_false_r in C. exact C.
    + apply orb_false_iff in C as [Gs' C].
      assert (L' : t_lb s' = Some t).
      { destruct M as [M|(-> & M & U & _)].
        - apply (at_true s' t N') in M as [[M _]|[M1 M2]]; [congruence|].
          assert (S' : List.In s (rev rl ++ s' :: r)) by (rewrite <- Ed'; exact S).
          apply in_app_iff in S' as [S'|[<-|S']]; [|exact Ls|]; exfalso.
          + destruct (linked_before (rev rl) s' r s) as (u & v & U & V & W); [rewrite <- Ed'; exact P2|rewrite <- Ed'; exact P3|exact S'|].
            rewrite V in M1. cbn in M1. destruct (ts_itv s Ns) as [_ O]. specialize (O t u Ls U).
            assert (u = t) by lra. subst u. apply in_rev in S'. specialize (Nm s S').
            rewrite <- not_true_iff_false in Nm. apply Nm. apply (at_true s t Ns). left. split; [|exact Ls]. apply (gate_true s Ns). exists t. auto.
          + destruct (linked_after (rev rl) s' r s) as (u & v & U & V & W); [rewrite <- Ed'; exact P2|rewrite <- Ed'; exact P3|exact S'|].
            rewrite U in M2. assert (v = t) by congruence. lra.
        - (* no TSlice matches: impossible *)
          exfalso. assert (A : ts_at s t = false).
          { assert (S' : List.In s (rev rl ++ [s'])) by (rewrite <- Ed'; exact S). apply in_app_iff in S' as [S'|[<-|[]]]; [|exact M].
            apply in_rev in S'. apply Nm, S'. }
          rewrite <- not_true_iff_false in A. apply A. apply (at_true s t Ns).
          destruct (t_ub s) as [u|] eqn:Us; [|right; rewrite Ls; cbn; split; [lra|exact I]].
          destruct (ts_itv s Ns) as [_ O]. specialize (O t u Ls Us). destruct O as [O|O].
          + right. rewrite Ls. cbn. split; [lra|exact O].
          + left. split; [apply (gate_true s Ns); exists t; subst; auto|exact Ls]. }
      set (a := TS (Itv (t_lb s') (Some t)) (ts_x s')). set (b := TS (Itv (Some t) (t_ub s')) (ts_x s')).
      assert (Ga : is_gate a = true) by (unfold is_gate, a; rewrite L'; cbn; apply Reqb_refl). rewrite Ga.
      eexists. split; [reflexivity|]. unfold good. rewrite Ed' at 1. refine (conj _ (conj _ (conj _ _))).
      * apply split_ext; [rewrite <- Ed'; exact P|exact In'|exact Gs'| |].
        -- intros _. rewrite rev_involutive. destruct rl as [|p rl]; [exact I|]. destruct (is_gate p) eqn:Gp; [|reflexivity]. exfalso.
           assert (Np : exists x, In x (ts_t p)) by (apply P2; rewrite Ed'; apply in_app_iff; left; apply -> in_rev; left; reflexivity).
           pose proof (Nm p ltac:(left; reflexivity)) as F. rewrite <- not_true_iff_false in F. apply F. apply (at_true p t Np). left. split; [exact Gp|].
           apply (gate_true p Np) in Gp as (x & X1 & X2).
           assert (K : linked ((rev rl ++ [p]) ++ s' :: r)) by (rewrite Ed' in P3; exact P3).
           rewrite <- app_assoc in K. apply linked_app in K as [_ [[(y & Y1 & Y2) _] _]]. congruence.
        -- intros Gb. exfalso. unfold is_gate in Gb. cbn in Gb. destruct (t_ub s') as [u|] eqn:Us; [|discriminate]. apply Reqb_true in Gb. subst u.
           assert (is_gate s' = true) by (apply (gate_true s' N'); exists t; auto). congruence.
      * apply bound_app. right. left. left. exact L'.
      * unfold a. rewrite L'. cbn. lra.
      * auto.
Qed.
(** two calls, when [t] is in the domain *)
Lemma sample_inside n g t d : partition d -> In t (t0_tf d) -> exists it, sample (S (S n)) g t d = Some it /\ good t g d it.
Proof.
  intros P Dom. pose proof P as (P1 & P2 & P3).
  destruct (iterator_spec t d P Dom) as (rl & s & r & Ei & Ed & Ins & Nm & M).
  assert (Ns : exists x, In x (ts_t s)) by eauto.
  destruct (match t_lb s with Some l => Reqb l t | None => false end) eqn:Lt.
  { (* a lower bound *)
    destruct (t_lb s) as [l|] eqn:L; [|discriminate]. apply Reqb_true in Lt. subst l.
    apply (sample_bound (S n) g t d P). exists s. split; [rewrite Ed; apply in_app_iff; right; left; reflexivity|exact L]. }
  assert (Sd : List.In s d) by (rewrite Ed; apply in_app_iff; right; left; reflexivity).
  assert (Gs : is_gate s = false).
  { destruct (is_gate s) eqn:G; [|reflexivity]. exfalso. apply (gate_true s Ns) in G as (x & X1 & X2).
    apply (in_ts s t Ns) in Ins. rewrite X1, X2 in Ins. cbn in Ins. rewrite X1 in Lt. apply Reqb_false in Lt. lra. }
  assert (Lts : lo_le (t_lb s) t) by (apply (in_ts s t Ns) in Ins; tauto).
  rewrite sample_S.
  destruct d as [|s0 r0]; [congruence|]. set (d := s0 :: r0) in *.
  assert (Lo : match d_lb d with Some l => Rleb t l | None => false end = false).
  { destruct (d_lb d) as [l|] eqn:L; [|reflexivity]. apply Rleb_false. rewrite Ed, lb_split in L.
    destruct (rev rl) as [|p l'] eqn:R.
    - rewrite L in Lts, Lt. cbn in Lts. apply Reqb_false in Lt. lra.
    - destruct (linked_before (p :: l') s r p) as (u & v & U & V & W); [rewrite <- Ed; exact P2|rewrite <- Ed; exact P3|left; reflexivity|].
      rewrite V in Lts, Lt. cbn in Lts. apply Reqb_false in Lt. destruct (ts_itv p) as [_ O]; [apply P2; rewrite Ed; left; reflexivity|].
      specialize (O l u L U). lra. }
  rewrite Lo. assert (Hi : match d_ub d with Some u => Rltb u t | None => false end = false).
  { destruct (d_ub d) as [u|] eqn:U; [|reflexivity]. apply Rltb_false. destruct Dom as [_ D]. rewrite U in D. exact D. }
  rewrite Hi, Ei, Gs. assert (NL : t_lb s <> Some t).
  { intro E. rewrite E in Lt. rewrite Reqb_refl in Lt. discriminate. }
  rewrite (proj2 (opt_eqb_false (t_lb s) (Some t)) NL). cbn [orb].
  set (a := TS (Itv (t_lb s) (Some t)) (ts_x s)). set (b := TS (Itv (Some t) (t_ub s)) (ts_x s)).
  assert (Ga : is_gate a = false).
  { unfold is_gate, a. cbn. destruct (t_lb s) as [l|]; [|reflexivity]. exact Lt. }
  assert (E : ext t d (rev rl ++ a :: b :: r)).
  { rewrite Ed. apply split_ext; [rewrite <- Ed; exact P|exact Ins|exact Gs|fold a; congruence|]. fold b.
    intros Gb. destruct M as [M|M]; [|tauto]. exfalso. apply (at_true s t Ns) in M as [[M _]|[_ M]]; [congruence|].
    unfold is_gate in Gb. cbn in Gb. destruct (t_ub s) as [u|]; [|discriminate]. apply Reqb_true in Gb. lra. }
  cbn zeta. rewrite Ga. destruct g; cbn [negb andb].
  - rewrite rev_append_app. destruct (sample_bound n true t (rev rl ++ a :: b :: r)) as (it & I1 & I2).
    + apply E.
    + exists b. split; [apply in_app_iff; right; right; left; reflexivity|reflexivity].
    + exists it. split; [exact I1|]. apply (good_trans t true d _ it E I2).
  - destruct (opt_eqb (Some t) (d_ub d)) eqn:Eu.
    + apply opt_eqb_true in Eu. eexists. split; [reflexivity|]. unfold good. rewrite <- Ed. refine (conj _ (conj _ (conj Ins _))).
      * apply ext_refl; assumption.
      * unfold d_ub in Eu. destruct (rev d) as [|z q] eqn:Z; [discriminate|]. exists z. split; [|auto]. apply in_rev. rewrite Z. left. reflexivity.
      * discriminate.
    + eexists. split; [reflexivity|]. unfold good. cbn [rev]. rewrite <- app_assoc. refine (conj E (conj _ (conj _ _))).
      * apply bound_app. right. left. right. reflexivity.
      * unfold b. cbn. split; [lra|]. apply (in_ts s t Ns) in Ins. tauto.
      * discriminate.
Qed.
(** in all cases *)
Lemma sample_good g t d : partition d -> exists it, sample 3 g t d = Some it /\ good t g d it.
Proof.
  intros P. pose proof P as (P1 & P2 & P3). destruct (In_dec t (t0_tf d)) as [Dom|Dom]; [apply sample_inside; assumption|].
  rewrite sample_S. destruct d as [|s0 r0]; [congruence|]. set (d := s0 :: r0) in *. cbn [In t0_tf] in Dom.
  destruct (match d_lb d with Some l => Rleb t l | None => false end) eqn:Lo.
  - destruct (d_lb d) as [l|] eqn:Lb; [|discriminate]. apply Rleb_true in Lo.
    assert (t < l).
    { destruct Lo as [Lo|Lo]; [exact Lo|]. exfalso. apply Dom. rewrite Lo. cbn. split; [lra|].
      destruct (d_ub d) as [u|] eqn:U; [|exact I]. cbn. apply (dom_ordered d l u P Lb U). }
    change (t_lb s0) with (d_lb d). rewrite Lb. cbn [opt_eqb]. rewrite (Reqb_f l t) by lra. rewrite andb_false_r.
    set (ts := TS (Itv (Some t) (Some l)) ALL).
    assert (E : ext t d (ts :: d)) by (apply prepend_ext; [exact P|exact Lb|lra|intros; lra]).
    assert (Gt : is_gate ts = false) by (unfold is_gate, ts; cbn; apply Reqb_f; lra). cbn zeta.
    destruct g.
    + rewrite Gt. destruct (sample_bound 1 true t (ts :: d)) as (it & I1 & I2).
      * apply E.
      * exists ts. split; [left; reflexivity|reflexivity].
      * exists it. split; [exact I1|]. apply (good_trans t true d _ it E I2).
    + eexists. split; [reflexivity|]. refine (conj E (conj _ (conj _ _))).
      * exists ts. split; [left; reflexivity|left; reflexivity].
      * unfold ts. cbn. lra.
      * discriminate.
  - destruct (match d_ub d with Some u => Rltb u t | None => false end) eqn:Hi.
    + destruct (d_ub d) as [u|] eqn:U; [|discriminate]. apply Rltb_true in Hi. set (ts := TS (Itv (Some u) (Some t)) ALL).
      assert (E : ext t d (d ++ [ts])) by (apply append_ext; assumption). cbn zeta. destruct g.
      * destruct (sample_inside 0 true t (d ++ [ts])) as (it & I1 & I2).
        -- apply E.
        -- apply (in_dom t d ts []); [apply E|]. unfold ts. cbn. lra.
        -- exists it. split; [exact I1|]. apply (good_trans t true d _ it E I2).
      * eexists. split; [reflexivity|]. unfold good. rewrite rev_involutive. refine (conj E (conj _ (conj _ _))).
        -- apply bound_app. right. left. right. reflexivity.
        -- unfold ts. cbn. lra.
        -- discriminate.
    + exfalso. apply Dom. split.
      * destruct (d_lb d) as [l|]; [|exact I]. cbn. apply Rleb_false in Lo. lra.
      * destruct (d_ub d) as [u|]; [|exact I]. cbn. apply Rltb_false in Hi. lra.
Qed.

(** ** C49 *)
(** a history of samplings *)
Fixpoint samples (ops : list (R * bool)) (d : list tslice) : option (list tslice) :=
  match ops with
  | [] => Some d
  | (t, g) :: ops' => match sample 3 g t d with Some it => samples ops' (whole it) | None => None end
  end.
Lemma whole_eq rl s r : whole (rl, s, r) = rev rl ++ s :: r. Proof. apply rev_append_app. Qed.
(** A sampling, inside or outside of the domain: no assertion fails; the TSlices are still a contiguous partition, of
    the domain extended to [t]; the previous bounds are still bounds, [t] is one; with gates, the iterator that is
    returned is a gate at [t]; the tube contains the same trajectories. *)
Theorem C49_sample : forall d t g, partition d -> exists rl s r,
  sample 3 g t d = Some (rl, s, r) /\ let d' := whole (rl, s, r) in
  partition d' /\ t0_tf d' = hull (t0_tf d) (pt t) /\ (forall x, bound d x -> bound d' x) /\ bound d' t /\
  In t (ts_t s) /\ (g = true -> is_gate s = true) /\ (forall f, traj_in f d <-> traj_in f d').
Proof.
  intros d t g P. destruct (sample_good g t d P) as ([[rl s] r] & E & (X1 & X2 & X3 & X4) & B & I & G). exists rl, s, r.
  refine (conj E _). cbv zeta. rewrite whole_eq. auto 10.
Qed.
(** Hence after any history. *)
Theorem C49 : forall ops d, partition d -> exists d', samples ops d = Some d' /\ partition d' /\
  (forall x, bound d x -> bound d' x) /\ (forall t g, List.In (t, g) ops -> bound d' t) /\ (forall f, traj_in f d <-> traj_in f d').
Proof.
  induction ops as [|[t g] ops IH]; intros d P; cbn [samples].
  - exists d. refine (conj eq_refl (conj P (conj _ (conj _ _)))); [auto|intros t g []|tauto].
  - destruct (C49_sample d t g P) as (rl & s & r & E & P1 & _ & B1 & T1 & _ & _ & F1). rewrite E. cbv zeta in *.
    destruct (IH _ P1) as (d' & E' & P' & B' & T' & F'). exists d'. refine (conj E' (conj P' (conj _ (conj _ _)))).
    + auto.
    + intros t' g' [H|H]; [injection H as <- <-; apply B', T1|apply (T' t' g' H)].
    + intros f. rewrite F1. apply F'.
Qed.
(** the constructors *)
Theorem C49_new : forall i x t, In t i -> partition (td_new i x) /\ t0_tf (td_new i x) = i.
Proof.
  intros i x t H. split; [|destruct i; [destruct H|reflexivity]]. refine (conj _ (conj _ I)); [discriminate|]. intros s [<-|[]]. eauto.
Qed.
Lemma td_loop_spec n ub dt g x : 0 < dt -> forall t l, t < ub -> td_loop n ub dt g x t = Some l ->
  exists l' z, l = l' ++ [z] /\ t_ub z = Some ub /\ is_gate z = false /\ partition l /\ d_lb l = Some t /\
    (is_gate (hd z l) = g) /\ (forall s, List.In s l -> ts_x s = x) /\
    (if g then forall l1 a b l2, l = l1 ++ a :: b :: l2 -> is_gate a = true \/ is_gate b = true else forall s, List.In s l -> is_gate s = false).
Proof.
  intros Hdt. induction n as [|n IH]; intros t l T E; [discriminate|]. cbn [td_loop] in E.
  rewrite (proj2 (Rltb_true t (ub + dt))) in E by lra.
  set (here := (if g then [TS (pt t) x] else []) ++ [TS (bnd t (Rmin ub (t + dt))) x]) in *.
  assert (M : t < Rmin ub (t + dt)) by (apply Rmin_glb_lt; lra).
  assert (B : bnd t (Rmin ub (t + dt)) = Itv (Some t) (Some (Rmin ub (t + dt)))).
  { unfold bnd, mk. destruct (Rle_dec t (Rmin ub (t + dt))); [reflexivity|lra]. }
  set (z0 := TS (bnd t (Rmin ub (t + dt))) x) in *.
  assert (Gz : is_gate z0 = false) by (unfold is_gate, z0; cbn [ts_t]; rewrite B; cbn; apply Reqb_f; lra).
  assert (Nz : exists y, In y (ts_t z0)) by (unfold z0; cbn [ts_t]; rewrite B; exists t; cbn; lra).
  assert (Zl : t_lb z0 = Some t) by (unfold z0, t_lb; cbn [ts_t]; rewrite B; reflexivity).
  assert (Zu : t_ub z0 = Some (Rmin ub (t + dt))) by (unfold z0, t_ub; cbn [ts_t]; rewrite B; reflexivity).
  assert (Gt : is_gate (TS (pt t) x) = true) by (unfold is_gate; cbn; apply Reqb_refl).
  destruct (Reqb (Rmin ub (t + dt)) ub) eqn:Q.
  - apply Reqb_true in Q. injection E as <-. unfold here. destruct g; cbn [app].
    + exists [TS (pt t) x], z0. refine (conj eq_refl (conj _ (conj Gz (conj _ (conj eq_refl (conj Gt (conj _ _))))))).
      * congruence.
      * refine (conj _ (conj _ _)); [discriminate| |].
        -- intros s [<-|[<-|[]]]; [exists t; cbn; lra|exact Nz].
        -- cbn [linked]. split; [|exact I]. split; [exists t; auto|]. intros [_ H]. congruence.
      * intros s [<-|[<-|[]]]; reflexivity.
      * intros [|? [|? [|? ?]]] a b l2 H; try (injection H as <- <- <-; auto); discriminate.
    + exists [], z0. refine (conj eq_refl (conj _ (conj Gz (conj _ (conj Zl (conj Gz (conj _ _))))))).
      * congruence.
      * refine (conj _ (conj _ I)); [discriminate|]. intros s [<-|[]]. exact Nz.
      * intros s [<-|[]]. reflexivity.
      * intros s [<-|[]]. exact Gz.
  - apply Reqb_false in Q. destruct (td_loop n ub dt g x (t + dt)) as [l1|] eqn:L1; [|discriminate]. injection E as <-.
    assert (T1 : t + dt < ub). { apply Rnot_le_lt. intro H. apply Q. apply Rmin_left. exact H. }
    rewrite Rmin_right in Zu by lra.
    destruct (IH (t + dt) l1 T1 L1) as (l' & z & -> & U & G & P & Lb & Hd & Xs & Al). pose proof P as (P1 & P2 & P3).
    assert (Lk : forall y, t_ub y = Some (t + dt) -> is_gate y = false -> linked (y :: l' ++ [z])).
    { intros y Uy Gy. destruct (l' ++ [z]) as [|c q] eqn:C; [exact I|]. change (link y c /\ linked (c :: q)). split; [|exact P3].
      split; [exists (t + dt); auto|]. intros [H _]. congruence. }
    assert (Lz : linked (z0 :: l' ++ [z])) by (apply Lk; assumption).
    exists (here ++ l'), z. rewrite app_assoc. refine (conj eq_refl (conj U (conj G _))).
    unfold here. destruct g; cbn [app].
    + refine (conj _ (conj eq_refl (conj Gt (conj _ _)))).
      * refine (conj _ (conj _ _)); [discriminate| |].
        -- intros s [<-|[<-|S]]; [exists t; cbn; lra|exact Nz|apply P2, S].
        -- change (link (TS (pt t) x) z0 /\ linked (z0 :: l' ++ [z])). split; [|exact Lz]. split; [exists t; auto|]. intros [_ H]. congruence.
      * intros s [<-|[<-|S]]; [reflexivity|reflexivity|apply Xs, S].
      * intros [|c [|c' q]] a b l2 H.
        -- injection H as <- <- _. auto.
        -- cbn [app] in H. injection H as <- <- H. right. destruct (l' ++ [z]); [discriminate|]. injection H as <- _. cbn in Hd. exact Hd.
        -- cbn [app] in H. injection H as <- <- H. apply (Al q a b l2). exact H.
    + refine (conj _ (conj Zl (conj Gz (conj _ _)))).
      * refine (conj _ (conj _ Lz)); [discriminate|]. intros s [<-|S]; [exact Nz|apply P2, S].
      * intros s [<-|S]; [reflexivity|apply Xs, S].
      * intros s [<-|S]; [exact Gz|apply Al, S].
Qed.
Lemma td_loop_ends ub dt g x : 0 < dt -> forall n t, ub <= t + INR n * dt -> exists l, td_loop (S n) ub dt g x t = Some l.
Proof.
  intros Hdt. induction n as [|n IH]; intros t H; cbn [td_loop].
  - cbn [INR] in H. destruct (Rltb t (ub + dt)); [|eauto]. assert (E : Rmin ub (t + dt) = ub) by (apply Rmin_left; lra). rewrite E, Reqb_refl. eauto.
  - rewrite S_INR in H. destruct (Rltb t (ub + dt)); [|eauto]. destruct (Reqb (Rmin ub (t + dt)) ub); [eauto|].
    destruct (IH (t + dt)) as (l & E); [lra|]. cbn [td_loop] in E. rewrite E. eauto.
Qed.
(** a gate at the first and the last bound, and between two consecutive slices *)
Definition gated (d : list tslice) : Prop :=
  (exists s r, d = s :: r /\ is_gate s = true) /\ (exists l s, d = l ++ [s] /\ is_gate s = true) /\
  (forall l a b r, d = l ++ a :: b :: r -> is_gate a = true \/ is_gate b = true).
Theorem C49_new_dt : forall lb ub dt g x, lb < ub -> 0 < dt -> exists n d, td_new_dt n lb ub dt g x = Some d /\
  partition d /\ t0_tf d = bnd lb ub /\ (forall s, List.In s d -> ts_x s = x) /\
  (if g then gated d else forall s, List.In s d -> is_gate s = false).
Proof.
  intros lb ub dt g x H Hdt. destruct (archimed ((ub - lb) / dt)) as [A _].
  assert (Z0 : (0 <= up ((ub - lb) / dt))%Z).
  { apply le_IZR. assert (0 <= (ub - lb) / dt) by (apply Rmult_le_pos; [lra|apply Rlt_le, Rinv_0_lt_compat; lra]). lra. }
  destruct (td_loop_ends ub dt g x Hdt (Z.to_nat (up ((ub - lb) / dt))) lb) as (l & E).
  { rewrite INR_IZR_INZ, Z2Nat.id by exact Z0. apply Rgt_lt in A. apply (Rmult_lt_compat_r dt) in A; [|lra].
    unfold Rdiv in A at 1. rewrite Rmult_assoc, Rinv_l in A by lra. lra. }
  eexists. unfold td_new_dt. rewrite E. eexists. split; [reflexivity|].
  destruct (td_loop_spec _ ub dt g x Hdt lb l H E) as (l' & z & -> & U & G & P & Lb & Hd & Xs & Al). pose proof P as (P1 & P2 & P3).
  assert (Bd : bnd lb ub = Itv (Some lb) (Some ub)) by (unfold bnd, mk; destruct (Rle_dec lb ub); [reflexivity|lra]). rewrite Bd.
  assert (Gt : is_gate (TS (pt ub) x) = true) by (unfold is_gate; cbn; apply Reqb_refl).
  destruct g.
  - refine (conj _ (conj _ (conj _ _))).
    + refine (conj _ (conj _ _)); [destruct l'; discriminate| |].
      * intros s S. apply in_app_iff in S as [S|[<-|[]]]; [apply P2, S|]. exists ub. cbn. lra.
      * apply linked_snoc; [exact P3|]. rewrite rev_app_distr. cbn. split; [exists ub; auto|]. intros [Q _]. congruence.
    + unfold t0_tf. rewrite d_ub_last. destruct l' as [|a l']; cbn in *; rewrite Lb; reflexivity.
    + intros s S. apply in_app_iff in S as [S|[<-|[]]]; [apply Xs, S|reflexivity].
    + refine (conj _ (conj _ _)).
      * destruct l' as [|a l']; [cbn in Hd; congruence|]. exists a, ((l' ++ [z]) ++ [TS (pt ub) x]). auto.
      * exists (l' ++ [z]), (TS (pt ub) x). auto.
      * intros l1 a b l2 Q. destruct (list_eq_dec_nil l2) as [->|(l3 & y & ->)].
        -- change (l1 ++ a :: [b]) with (l1 ++ [a] ++ [b]) in Q. rewrite app_assoc in Q. apply app_inj_tail in Q as [_ Q]. subst b. auto.
        -- change (l1 ++ a :: b :: l3 ++ [y]) with (l1 ++ (a :: b :: l3) ++ [y]) in Q. rewrite app_assoc in Q. apply app_inj_tail in Q as [Q _].
           apply (Al l1 a b l3 Q).
  - rewrite app_nil_r. refine (conj P (conj _ (conj Xs Al))). unfold t0_tf. rewrite Lb, d_ub_last, U. reflexivity.
Qed.

(** *** delete_gates *)
Lemma filter_lb s r : (forall s', List.In s' (s :: r) -> exists t, In t (ts_t s')) -> linked (s :: r) -> delete_gates r <> [] -> d_lb (delete_gates r) = t_ub s.
Proof.
  revert s. induction r as [|c r IH]; intros s N L F; [cbn in F; congruence|]. cbn [linked] in L. destruct L as [[(t & T1 & T2) _] L].
  cbn [delete_gates filter] in F |- *. destruct (is_gate c) eqn:G; cbn [negb] in F |- *; [|cbn; congruence].
  fold (delete_gates r) in F |- *. rewrite (IH c (fun s' S' => N s' (or_intror S')) L F).
  apply (gate_true c) in G as (a & A1 & A2); [congruence|]. apply N. right. left. reflexivity.
Qed.
Lemma filter_linked d : (forall s', List.In s' d -> exists t, In t (ts_t s')) -> linked d -> linked (delete_gates d).
Proof.
  induction d as [|s r IH]; intros N L; [exact I|]. assert (Lr : linked r) by (destruct r; [exact I|apply L]).
  specialize (IH (fun s' S' => N s' (or_intror S')) Lr). cbn [delete_gates filter]. destruct (is_gate s) eqn:G; cbn [negb]; [exact IH|].
  fold (delete_gates r). pose proof (filter_lb s r N L) as F. assert (A : forall y, List.In y (delete_gates r) -> List.In y r /\ is_gate y = false).
  { intros y Y. apply filter_In in Y as [Y1 Y2]. apply negb_true_iff in Y2. auto. }
  destruct (delete_gates r) as [|b q] eqn:D; [exact I|]. change (link s b /\ linked (b :: q)). split; [|exact IH].
  specialize (F ltac:(discriminate)). cbn in F. split.
  - destruct r as [|c r']; [discriminate|]. destruct L as [[(t & T1 & T2) _] _]. exists t. split; [exact T1|congruence].
  - intros [H _]. congruence.
Qed.
(** Without its gates, a domain that is not reduced to one instant is still a partition, of the same domain; the
    trajectories of the tube are kept. *)
Theorem C49_delete_gates_partial : forall d, partition d -> is_degenerated (t0_tf d) = false ->
  partition (delete_gates d) /\ t0_tf (delete_gates d) = t0_tf d /\ (forall s, List.In s (delete_gates d) -> is_gate s = false) /\
  (forall f, traj_in f d -> traj_in f (delete_gates d)).
Proof.
  intros d P D. pose proof P as (P1 & P2 & P3).
  assert (A : forall y, List.In y (delete_gates d) -> List.In y d /\ is_gate y = false).
  { intros y Y. apply filter_In in Y as [Y1 Y2]. apply negb_true_iff in Y2. auto. }
  assert (Ne : delete_gates d <> []).
  { intro E. assert (All : forall s, List.In s d -> is_gate s = true).
    { intros s S. destruct (is_gate s) eqn:G; [reflexivity|]. exfalso. assert (X : List.In s (delete_gates d)) by (apply filter_In; rewrite G; auto).
      rewrite E in X. destruct X. }
    destruct d as [|a [|b r]]; [congruence| |].
    - specialize (All a ltac:(left; reflexivity)). apply (gate_true a) in All as (t & T1 & T2); [|apply P2; left; reflexivity].
      unfold t0_tf in D. change (d_ub [a]) with (t_ub a) in D. change (d_lb [a]) with (t_lb a) in D. rewrite T1, T2 in D. cbn in D. rewrite Reqb_refl in D. discriminate.
    - destruct P3 as [[_ H] _]. apply H. split; apply All; cbn; auto. }
  refine (conj _ (conj _ (conj _ _))).
  - refine (conj Ne (conj _ (filter_linked d P2 P3))). intros s S. apply P2, A, S.
  - unfold t0_tf. f_equal.
    + destruct d as [|s r]; [congruence|]. cbn [delete_gates filter] in Ne |- *. destruct (is_gate s) eqn:G; cbn [negb] in Ne |- *; [|reflexivity].
      fold (delete_gates r) in Ne |- *. rewrite (filter_lb s r P2 P3 Ne). apply (gate_true s) in G as (a & A1 & A2); [cbn; congruence|apply P2; left; reflexivity].
    + destruct (list_eq_dec_nil d) as [->|(l & z & ->)]; [congruence|]. rewrite d_ub_last. unfold delete_gates in *. rewrite filter_app in *.
      cbn [filter] in *. destruct (is_gate z) eqn:G; cbn [negb] in *; [|rewrite d_ub_last; reflexivity]. rewrite app_nil_r in *.
      destruct (list_eq_dec_nil l) as [->|(l' & p & ->)]; [cbn in Ne; congruence|]. rewrite <- app_assoc in P3. apply linked_app in P3 as [_ [[(t & T1 & T2) Gp] _]].
      assert (Gp' : is_gate p = false) by (destruct (is_gate p); [exfalso; auto|reflexivity]).
      rewrite filter_app. cbn [filter]. rewrite Gp'. cbn [negb]. rewrite d_ub_last.
      apply (gate_true z) in G as (a & A1 & A2); [congruence|]. apply P2. apply in_app_iff. right. left. reflexivity.
  - intros s S. apply A, S.
  - intros f F s t S. apply F, A, S.
Qed.
(** A domain reduced to one instant has no TSlice left: front() of an empty list at the next call. *)
Theorem C49_delete_gates_refuted : exists d, partition d /\ delete_gates d = [].
Proof.
  exists (td_new (pt 0) ALL). split; [apply (C49_new (pt 0) ALL 0); cbn; lra|]. unfold td_new, delete_gates, is_gate. cbn. rewrite Reqb_refl. reflexivity.
Qed.
Example C49_ex : partition (td_new (bnd 0 10) ALL) /\
  samples [(5, false)] (td_new (bnd 0 10) ALL) = Some [TS (bnd 0 5) ALL; TS (bnd 5 10) ALL].
Proof.
  split; [apply (C49_new _ _ 0); apply In_bnd; lra|]. assert (B : forall a b, a <= b -> bnd a b = Itv (Some a) (Some b)).
  { intros a b H. unfold bnd, mk. destruct (Rle_dec a b); [reflexivity|lra]. }
  rewrite !B by lra. unfold samples, td_new. rewrite sample_S. cbn [d_lb t_lb ts_t]. rewrite (proj2 (Rleb_false 5 0)) by lra.
  change (d_ub [TS (Itv (Some 0) (Some 10)) ALL]) with (Some 10). cbv beta iota. rewrite (Rltb_f 10 5) by lra.
  assert (A : iterator_tslice 5 [TS (Itv (Some 0) (Some 10)) ALL] = Some ([], TS (Itv (Some 0) (Some 10)) ALL, [])).
  { unfold iterator_tslice. change (t0_tf [TS (Itv (Some 0) (Some 10)) ALL]) with (Itv (Some 0) (Some 10)).
    rewrite (proj2 (contains_true (Itv (Some 0) (Some 10)) 5)) by (cbn; lra). cbn [find_ts]. destruct (ts_at _ _); reflexivity. }
  rewrite A. unfold is_gate. cbn. rewrite (Reqb_f 0 10), (Reqb_f 0 5), (Reqb_f 5 10) by lra. cbn. reflexivity.
Qed.

(** ** C50 *)
Lemma deg_single d : partition d -> is_degenerated (t0_tf d) = true -> exists s, d = [s] /\ is_gate s = true.
Proof.
  intros P D. pose proof P as (P1 & P2 & P3). unfold t0_tf in D. cbn in D.
  destruct (d_lb d) as [l|] eqn:L; [|discriminate]. destruct (d_ub d) as [u|] eqn:U; [|discriminate]. apply Reqb_true in D. subst u.
  assert (All : forall s, List.In s d -> is_gate s = true).
  { intros s S. apply in_split in S as (l1 & l2 & E). assert (Ns : exists t, In t (ts_t s)) by (apply P2; rewrite E; apply in_app_iff; right; left; reflexivity).
    apply (gate_true s Ns). assert (Q : forall x, In x (ts_t s) -> x = l).
    { intros x X. rewrite E in P. pose proof (in_dom x l1 s l2 P X) as D. rewrite <- E in D. unfold t0_tf in D. rewrite L, U in D. cbn in D. lra. }
    destruct (ts_itv s Ns) as [Es Os]. destruct Ns as [x X]. pose proof (Q x X) as ->. rewrite Es in X. cbn in X.
    assert (Ql : t_lb s = Some l).
    { destruct (t_lb s) as [a|] eqn:A.
      - f_equal. apply Q. rewrite Es. cbn. split; [lra|]. destruct (t_ub s); cbn in *; [apply Os; auto|exact I].
      - exfalso. assert (l - 1 = l); [|lra]. apply Q. rewrite Es. cbn. split; [exact I|]. destruct (t_ub s); cbn in *; [lra|exact I]. }
    exists l. split; [exact Ql|]. rewrite Ql in *. destruct (t_ub s) as [b|] eqn:B.
    - f_equal. apply Q. rewrite Es. cbn. split; [apply Os; auto|lra].
    - exfalso. assert (l + 1 = l); [|lra]. apply Q. rewrite Es. cbn. split; [lra|exact I]. }
  destruct d as [|a [|b r]]; [congruence| |].
  - exists a. split; [reflexivity|]. apply All. left. reflexivity.
  - exfalso. destruct P3 as [[_ H] _]. apply H. split; apply All; cbn; auto.
Qed.
Lemma alternate_pairs l : linked l -> match l with s :: _ => is_gate s = false | [] => True end ->
  (alternate l = true <-> forall l1 a b l2, l = l1 ++ a :: b :: l2 -> is_gate a = true \/ is_gate b = true).
Proof.
  assert (Q : forall n l, (length l <= n)%nat -> linked l -> match l with s :: _ => is_gate s = false | [] => True end ->
    (alternate l = true <-> forall l1 a b l2, l = l1 ++ a :: b :: l2 -> is_gate a = true \/ is_gate b = true)); [|intros; eapply Q; eauto].
  clear l. induction n as [|n IH]; intros l N L G.
  { destruct l; [|cbn in N; lia]. cbn. split; [|auto]. intros _ [|? ?] a b l2 H; discriminate. }
  destruct l as [|s [|c r]].
  - cbn. split; [|auto]. intros _ [|? ?] a b l2 H; discriminate.
  - cbn [alternate]. rewrite G. split; [|auto]. intros _ [|? [|? ?]] a b l2 H; discriminate.
  - cbn [alternate]. rewrite G. destruct (is_gate c) eqn:Gc.
    + assert (Gr : match r with s :: _ => is_gate s = false | [] => True end).
      { destruct r as [|e r]; [exact I|]. destruct L as [_ [[_ H] _]]. destruct (is_gate e); [exfalso; auto|reflexivity]. }
      assert (Lr : linked r) by (destruct L as [_ L]; destruct r; [exact I|apply L]).
      rewrite (IH r ltac:(cbn in N; lia) Lr Gr). split; intros H.
      * intros [|x [|y l1]] a b l2 E.
        -- injection E as <- <- _. auto.
        -- injection E as <- <- E. auto.
        -- injection E as <- <- E. apply (H l1 a b l2 E).
      * intros l1 a b l2 E. apply (H (s :: c :: l1) a b l2). rewrite E. reflexivity.
    + split; [discriminate|]. intros H. destruct (H [] s c r eq_refl); congruence.
Qed.
(** all_gates_defined() never misses: it holds when there are gates everywhere; and it is exact for the domains that
    begin and end with a gate. *)
Theorem C50_partial : forall d, partition d ->
  (gated d -> all_gates_defined d = true) /\
  (is_gate (hd (TS Emp Emp) d) = true -> is_gate (last d (TS Emp Emp)) = true -> all_gates_defined d = true -> gated d).
Proof.
  intros d P. pose proof P as (P1 & P2 & P3). unfold all_gates_defined. destruct (is_degenerated (t0_tf d)) eqn:D.
  - destruct (deg_single d P D) as (s & -> & G). split; [auto|]. intros _ _ _. refine (conj _ (conj _ _)).
    + exists s, []. auto.
    + exists [], s. auto.
    + intros [|? [|? ?]] a b r H; discriminate.
  - destruct d as [|s [|c r]]; [congruence| |].
    + cbn [length Nat.eqb]. split; [|discriminate]. intros ((s' & r' & E & G) & _ & _). injection E as <- <-. exfalso.
      apply (gate_true s) in G as (t & T1 & T2); [|apply P2; left; reflexivity]. unfold t0_tf in D. cbn in D. rewrite T1 in D.
      change (d_ub [s]) with (t_ub s) in D. rewrite T2 in D. rewrite Reqb_refl in D. discriminate.
    + change (Nat.eqb (length (s :: c :: r)) 1) with false. cbn [tl].
      assert (Lr : linked (c :: r)) by apply P3. assert (Gc : is_gate s = true -> is_gate c = false).
      { intros Gs. destruct P3 as [[_ H] _]. destruct (is_gate c); [exfalso; auto|reflexivity]. }
      split.
      * intros ((s' & r' & E & G) & _ & H). injection E as <- <-. apply (alternate_pairs (c :: r) Lr (Gc G)).
        intros l1 a b l2 E. apply (H (s :: l1) a b l2). rewrite E. reflexivity.
      * intros G1 G2 H. cbn in G1. refine (conj _ (conj _ _)).
        -- exists s, (c :: r). auto.
        -- destruct (exists_last (l := s :: c :: r) ltac:(discriminate)) as (l & z & E). exists l, z. rewrite E in *. rewrite last_last in G2. auto.
        -- intros [|x l] a b l2 E.
           ++ injection E as <- <- _. auto.
           ++ injection E as <- E. apply (proj1 (alternate_pairs (c :: r) Lr (Gc G1)) H l a b l2 E).
Qed.
(** true without any gate *)
Theorem C50_refuted : exists d, partition d /\ all_gates_defined d = true /\ (forall s, List.In s d -> is_gate s = false) /\ ~ gated d.
Proof.
  set (d := [TS (Itv (Some 0) (Some 1)) ALL; TS (Itv (Some 1) (Some 2)) ALL]). exists d.
  assert (G1 : is_gate (TS (Itv (Some 0) (Some 1)) ALL) = false) by (unfold is_gate; cbn; apply Reqb_f; lra).
  assert (G2 : is_gate (TS (Itv (Some 1) (Some 2)) ALL) = false) by (unfold is_gate; cbn; apply Reqb_f; lra).
  refine (conj _ (conj _ (conj _ _))).
  - refine (conj _ (conj _ _)); [discriminate| |].
    + intros s [<-|[<-|[]]]; exists 1; cbn; lra.
    + cbn [linked d]. split; [|exact I]. split; [exists 1; auto|]. intros [H _]. congruence.
  - unfold all_gates_defined. change (t0_tf d) with (Itv (Some 0) (Some 2)). cbn [is_degenerated]. rewrite (Reqb_f 0 2) by lra.
    cbn [d length Nat.eqb tl alternate]. rewrite G2. reflexivity.
  - intros s [<-|[<-|[]]]; assumption.
  - intros ((s & r & E & G) & _). injection E as <- _. congruence.
Qed.
Example C50_ex : exists d, partition d /\ gated d /\ is_degenerated (t0_tf d) = false.
Proof.
  destruct (C49_new_dt 0 1 1 true ALL ltac:(lra) ltac:(lra)) as (n & d & _ & P & T & _ & G). exists d. refine (conj P (conj G _)).
  rewrite T. unfold bnd, mk. destruct (Rle_dec 0 1); [|lra]. cbn. apply Reqb_f. lra.
Qed.

(** a sampling without gates may add one: at the first instant of the domain *)
Theorem C49_no_gate_refuted : exists d t rl s r, partition d /\ (forall x, List.In x d -> is_gate x = false) /\
  sample 3 false t d = Some (rl, s, r) /\ is_gate s = true /\ ts_x s = ALL /\ t0_tf d = t0_tf (whole (rl, s, r)) /\ eval t d <> ALL.
Proof.
  set (x := Itv (Some 1) (Some 2)). set (s0 := TS (Itv (Some 0) (Some 1)) x). exists [s0], 0, [], (TS (Itv (Some 0) (Some 0)) ALL), [s0].
  assert (G0 : is_gate s0 = false) by (unfold is_gate; cbn; apply Reqb_f; lra).
  refine (conj _ (conj _ (conj _ (conj _ (conj eq_refl (conj _ _)))))).
  - refine (conj _ (conj _ I)); [discriminate|]. intros s [<-|[]]. exists 0. cbn. lra.
  - intros y [<-|[]]. exact G0.
  - rewrite sample_S. change (d_lb [s0]) with (Some 0). cbv beta iota. rewrite (Rleb_t 0 0) by lra. rewrite G0. reflexivity.
  - unfold is_gate. cbn. apply Reqb_refl.
  - reflexivity.
  - unfold eval. change (t0_tf [s0]) with (Itv (Some 0) (Some 1)). rewrite (proj2 (contains_true _ 0)) by (cbn; lra).
    unfold iterator_tslice. change (t0_tf [s0]) with (Itv (Some 0) (Some 1)). rewrite (proj2 (contains_true _ 0)) by (cbn; lra).
    cbn [find_ts]. destruct (ts_at s0 0); destruct (negb (is_gate s0) && opt_eqb (Some 0) (t_lb s0)); cbn; discriminate.
Qed.

Print Assumptions C49.
Print Assumptions C49_new_dt.
Print Assumptions C50_partial.
