(** * C87: contains() with floating-point instants

    Specification: a trajectory is in a set on [a,b]; a slice contains it ([slice_has], TubeSpec.v). *)

From Coq Require Import Reals ZArith Bool List Lra Lia.
From Flocq Require Import Core.
Import ListNotations.
From Verif Require Import Itv Concrete Tube TubeOps TubeSpec TubeQueries Static PropsStatic PropsSivia Paving PropsPaving3 Codac2Contains PropsContains2 Double ContainsFloat.
Open Scope R_scope.
Set Bullet Behavior "Strict Subproofs".

(** a double, of any magnitude *)
Definition dbl (x : R) : Prop := generic_format radix2 fexp64 x.

Section Rounding.
Context (rnd : R -> Z) {VR : Valid_rnd rnd}.
Notation fl := (fl rnd).
Local Instance ve : Valid_exp fexp64. Proof. apply FLT_exp_valid. unfold Prec_gt_0. lia. Qed.
Lemma fl_mono x y : x <= y -> fl x <= fl y. Proof. apply round_le; typeclasses eauto. Qed.
Lemma fl_dbl x : dbl (fl x). Proof. apply generic_format_round; typeclasses eauto. Qed.
Lemma fl_id x : dbl x -> fl x = x. Proof. intros D. apply round_generic; [typeclasses eauto|exact D]. Qed.
Lemma bpow_dbl e : (-1074 <= e)%Z -> dbl (bpow radix2 e).
Proof. intros H. apply generic_format_bpow. unfold fexp64, FLT_exp. lia. Qed.

(** a real between two powers of two *)
Lemma pow_above x : 0 < x -> exists e, bpow radix2 (e - 1) < x <= bpow radix2 e.
Proof.
  intros H. destruct (mag radix2 x) as (e & E). specialize (E ltac:(lra)). rewrite Rabs_right in E by lra.
  destruct (Req_dec x (bpow radix2 (e - 1))) as [->|N].
  - exists (e - 1)%Z. split; [apply bpow_lt; lia|lra].
  - exists e. lra.
Qed.
Lemma mid_between l u : dbl l -> dbl u -> bpow radix2 (-1073) <= u - l -> l <= f_mid rnd l u <= u.
Proof.
  intros Dl Du H. pose proof (bpow_gt_0 radix2 (-1073)) as P0. destruct (pow_above (u - l) ltac:(lra)) as (e & E1 & E2).
  assert (He : (-1074 <= e - 1)%Z).
  { apply Z.nlt_ge. intros C. assert (bpow radix2 e < bpow radix2 (-1073)) by (apply bpow_lt; lia). lra. }
  unfold f_mid. assert (D0 : 0 <= f_diam rnd l u). { rewrite <- (fl_id 0); [apply fl_mono; lra|apply generic_format_0]. }
  assert (D1 : f_diam rnd l u <= bpow radix2 e). { rewrite <- (fl_id (bpow radix2 e)); [apply fl_mono; lra|apply bpow_dbl; lia]. }
  assert (M0 : 0 <= fl (f_diam rnd l u / 2)). { rewrite <- (fl_id 0) at 1; [apply fl_mono; lra|apply generic_format_0]. }
  assert (M1 : fl (f_diam rnd l u / 2) <= bpow radix2 (e - 1)).
  { rewrite <- (fl_id (bpow radix2 (e - 1))); [apply fl_mono|apply bpow_dbl; lia].
    replace (bpow radix2 (e - 1)) with (bpow radix2 e / 2); [lra|]. unfold Zminus. rewrite bpow_plus. cbn. lra. }
  split.
  - rewrite <- (fl_id l) at 1 by exact Dl. apply fl_mono. lra.
  - rewrite <- (fl_id u) at 2 by exact Du. apply fl_mono. lra.
Qed.
Lemma split_wide l u : Rltb (f_diam rnd l u) eps_contains = false -> bpow radix2 (-1073) <= u - l.
Proof.
  intros H. apply Rltb_false in H. apply Rnot_lt_le. intros C. 
  assert (f_diam rnd l u <= bpow radix2 (-1073)). { rewrite <- (fl_id (bpow radix2 (-1073))); [apply fl_mono; lra|apply bpow_dbl; lia]. }
  unfold eps_contains in H. replace (-1073)%Z with (-1074 + 1)%Z in H0 by lia. rewrite bpow_plus in H0. change (bpow radix2 1) with 2 in H0.
  pose proof (bpow_gt_0 radix2 (-1074)). lra.
Qed.
Lemma f_mid_dbl l u : dbl (f_mid rnd l u). Proof. apply fl_dbl. Qed.

(** ** The verdict *)
Section Loop.
Variables disj subs : R -> R -> bool.
Variable inside : R -> Prop.
Variables a b : R.
Hypothesis Hd : forall l u, a <= l -> l <= u -> u <= b -> disj l u = true -> exists t, l <= t <= u /\ ~ inside t.
Hypothesis Hs : forall l u, a <= l -> l <= u -> u <= b -> subs l u = true -> forall t, l <= t <= u -> inside t.
Definition good_st (st : list (R * R)) : Prop :=
  (forall l u, List.In (l, u) st -> dbl l /\ dbl u /\ a <= l /\ l <= u /\ u <= b) /\
  (forall t, a <= t <= b -> inside t \/ exists l u, List.In (l, u) st /\ l <= t <= u).
Lemma run_verdict : forall n st r, good_st st -> f_run rnd disj subs n st = inr r ->
  (r = YES -> forall t, a <= t <= b -> inside t) /\ (r = NO -> exists t, a <= t <= b /\ ~ inside t).
Proof.
  induction n as [|n IH]; intros st r (G1 & G2) H; cbn [f_run] in H; [discriminate|].
  destruct (f_turn rnd disj subs st) as [st'|q] eqn:T.
  - apply (IH st' r); [|exact H]. clear IH H. unfold f_turn in T. destruct st as [|[l u] st]; [discriminate|].
    destruct (G1 l u (or_introl eq_refl)) as (Dl & Du & Hl & Hlu & Hu).
    destruct (disj l u); [discriminate|]. destruct (subs l u) eqn:E; cbn [negb] in T.
    + injection T as <-. split.
      * intros l' u' X. apply G1. right. exact X.
      * intros t Ht. destruct (G2 t Ht) as [I1|(l' & u' & [X|X] & B)]; [left; exact I1| |right; eauto].
        injection X as <- <-. left. apply (Hs l u Hl Hlu Hu E t B).
    + destruct (Rltb (f_diam rnd l u) eps_contains) eqn:W; [discriminate|]. injection T as <-.
      pose proof (mid_between l u Dl Du (split_wide l u W)) as M. pose proof (f_mid_dbl l u) as Dm. set (m := f_mid rnd l u) in *. clearbody m.
      split.
      * intros l' u' [X|[X|X]]; [injection X as <- <-..|apply G1; right; exact X]; refine (conj _ (conj _ _)); auto; lra.
      * intros t Ht. destruct (G2 t Ht) as [I1|(l' & u' & [X|X] & B)]; [left; exact I1| |right; exists l', u'; split; [right; right; exact X|exact B]].
        injection X as <- <-. right. destruct (Rle_dec t m); [exists l, m|exists m, u]; (split; [cbn; auto|lra]).
  - injection H as <-. unfold f_turn in T. destruct st as [|[l u] st].
    + injection T as <-. split; [|discriminate]. intros _ t Ht. destruct (G2 t Ht) as [I1|(l' & u' & [] & _)]. exact I1.
    + destruct (G1 l u (or_introl eq_refl)) as (Dl & Du & Hl & Hlu & Hu). destruct (disj l u) eqn:E.
      * injection T as <-. split; [discriminate|]. intros _. destruct (Hd l u Hl Hlu Hu E) as (t & B & N). exists t. split; [lra|exact N].
      * destruct (negb (subs l u)); [|discriminate]. destruct (Rltb _ _); [|discriminate]. injection T as <-. split; discriminate.
Qed.

(** ** No answer: the values are inside from [ts] on, and leave just before *)
Variable ts : R.
Hypothesis Hts : bpow radix2 (-1000) <= ts.
Hypothesis Hin : forall l u, a <= l -> l < ts -> ts <= u -> u <= b -> disj l u = false /\ subs l u = false.
Hypothesis Hright : forall l u, ts <= l -> l <= u -> u <= b -> disj l u = false /\ subs l u = true.
Definition stuck (st : list (R * R)) : Prop := exists p l u r, st = p ++ (l, u) :: r /\
  (forall l' u', List.In (l', u') p -> ts <= l' /\ l' <= u' /\ u' <= b) /\ dbl l /\ dbl u /\ a <= l /\ l < ts /\ ts <= u /\ u <= b.
(** two doubles on both sides of [ts] are far from each other *)
Lemma gap l u : dbl l -> dbl u -> l < ts -> ts <= u -> bpow radix2 (-1060) <= u - l.
Proof.
  intros Dl Du L U. destruct (Rle_dec l (bpow radix2 (-1001))) as [S|S].
  - pose proof (bpow_lt radix2 (-1060) (-1001) ltac:(lia)). replace (-1000)%Z with (-1001 + 1)%Z in Hts by lia. rewrite bpow_plus in Hts. change (bpow radix2 1) with 2 in Hts. lra.
  - assert (Sl : succ radix2 fexp64 l <= u) by (apply succ_le_lt; try typeclasses eauto; auto; lra).
    assert (Pl : 0 <= l) by (pose proof (bpow_gt_0 radix2 (-1001)); lra). rewrite succ_eq_pos in Sl by exact Pl.
    assert (ulp radix2 fexp64 (bpow radix2 (-1001)) <= ulp radix2 fexp64 l).
    { apply ulp_le_pos; try typeclasses eauto; [apply bpow_ge_0|lra]. }
    rewrite ulp_bpow in H. assert (fexp64 (-1001 + 1) = (-1053))%Z by (unfold fexp64, FLT_exp; lia). rewrite H0 in H.
    pose proof (bpow_lt radix2 (-1060) (-1053) ltac:(lia)). lra.
Qed.
Lemma stuck_turn st : stuck st -> exists st', f_turn rnd disj subs st = inl st' /\ stuck st'.
Proof.
  intros (p & l & u & r & -> & Hp & Dl & Du & Ha & L & U & Hb). destruct p as [|[l' u'] p]; cbn [app f_turn].
  - destruct (Hin l u Ha L U Hb) as [-> ->]. cbn [negb]. pose proof (gap l u Dl Du L U) as G.
    assert (W : Rltb (f_diam rnd l u) eps_contains = false).
    { apply Rltb_false. apply Rle_trans with (bpow radix2 (-1060)).
      - unfold eps_contains. replace (-1060)%Z with (-1074 + 14)%Z by lia. rewrite bpow_plus. change (bpow radix2 14) with 16384. pose proof (bpow_gt_0 radix2 (-1074)). lra.
      - rewrite <- (fl_id (bpow radix2 (-1060))); [apply fl_mono; exact G|apply bpow_dbl; lia]. }
    rewrite W. pose proof (mid_between l u Dl Du (split_wide l u W)) as M. pose proof (f_mid_dbl l u) as Dm. set (m := f_mid rnd l u) in *. clearbody m.
    eexists. split; [reflexivity|]. destruct (Rle_dec ts m) as [C|C].
    + exists [(m, u)], l, m, r. refine (conj eq_refl (conj _ _)); [|repeat split; auto; lra]. intros l' u' [X|[]]. injection X as <- <-. lra.
    + exists [], m, u, ((l, m) :: r). refine (conj eq_refl (conj _ _)); [intros ? ? []|repeat split; auto; lra].
  - destruct (Hp l' u' (or_introl eq_refl)) as (X1 & X2 & X3). destruct (Hright l' u' X1 X2 X3) as [-> ->]. cbn [negb].
    eexists. split; [reflexivity|]. exists p, l, u, r. refine (conj eq_refl (conj _ _)); [intros l1 u1 X; apply Hp; right; exact X|repeat split; auto].
Qed.
Lemma stuck_run : forall n st, stuck st -> exists st', f_run rnd disj subs n st = inl st'.
Proof.
  induction n as [|n IH]; intros st S0; cbn [f_run]; [eauto|]. destruct (stuck_turn st S0) as (st' & -> & S1). apply IH, S1.
Qed.
End Loop.

(** ** An answer: short intervals are decided *)
Lemma fl_err x e : (-1000 <= e)%Z -> Rabs x <= bpow radix2 e -> Rabs (fl x - x) <= bpow radix2 (e - 52).
Proof.
  intros He H. eapply Rle_trans; [apply error_le_ulp; typeclasses eauto|].
  rewrite <- ulp_abs. eapply Rle_trans; [apply ulp_le_pos; try typeclasses eauto; [apply Rabs_pos|exact H]|].
  rewrite ulp_bpow. apply bpow_le. unfold fexp64, FLT_exp. lia.
Qed.
Section Answer.
Variables disj subs : R -> R -> bool.
Variables a b delta : R.
Variable e : Z.
Hypothesis He : (-900 <= e)%Z.
Hypothesis Ba : Rabs a <= bpow radix2 e.
Hypothesis Bb : Rabs b <= bpow radix2 e.
Hypothesis Bd : bpow radix2 (e - 46) <= delta.
Hypothesis Dec : forall l u, a <= l -> l <= u -> u <= b -> u - l <= delta -> disj l u = true \/ subs l u = true.
Lemma mid_near l u : a <= l -> l <= u -> u <= b -> Rabs (f_mid rnd l u - (l + u) / 2) <= delta / 8.
Proof.
  intros Ha Hlu Hb. pose proof (Rabs_le_inv _ _ Ba) as Ba1. pose proof (Rabs_le_inv _ _ Bb) as Bb1.
  assert (P : forall k, bpow radix2 (e + k) = bpow radix2 e * bpow radix2 k) by (intros; apply bpow_plus).
  pose proof (bpow_gt_0 radix2 e) as P0. pose proof (P 1%Z) as P1. pose proof (P 2%Z) as P2.
  change (bpow radix2 1) with 2 in P1. change (bpow radix2 2) with 4 in P2.
  assert (Q : forall k, bpow radix2 (e - 49 + k) = bpow radix2 (e - 49) * bpow radix2 k) by (intros; apply bpow_plus).
  pose proof (bpow_gt_0 radix2 (e - 49)) as Q0. pose proof (Q 3%Z) as Q3. pose proof (Q (-1)%Z) as Q1. pose proof (Q (-2)%Z) as Q2.
  change (bpow radix2 3) with 8 in Q3. change (bpow radix2 (-1)) with (/ 2) in Q1. change (bpow radix2 (-2)) with (/ 4) in Q2.
  replace (e - 49 + 3)%Z with (e - 46)%Z in Q3 by lia.
  assert (S0 : bpow radix2 (e - 49) <= bpow radix2 e) by (apply bpow_le; lia).
  pose proof (fl_err (u - l) (e + 1) ltac:(lia) ltac:(apply Rabs_le; lra)) as E1.
  replace (e + 1 - 52)%Z with (e - 49 + -2)%Z in E1 by lia. change (ContainsFloat.fl rnd (u - l)) with (f_diam rnd l u) in E1.
  set (d := f_diam rnd l u) in *. unfold f_mid. fold d. clearbody d. apply Rabs_le_inv in E1.
  pose proof (fl_err (d / 2) (e + 1) ltac:(lia) ltac:(apply Rabs_le; lra)) as E2. replace (e + 1 - 52)%Z with (e - 49 + -2)%Z in E2 by lia.
  set (h := ContainsFloat.fl rnd (d / 2)) in *. clearbody h. apply Rabs_le_inv in E2.
  pose proof (fl_err (l + h) (e + 2) ltac:(lia) ltac:(apply Rabs_le; lra)) as E3. replace (e + 2 - 52)%Z with (e - 49 + -1)%Z in E3 by lia.
  set (m := ContainsFloat.fl rnd (l + h)) in *. clearbody m. apply Rabs_le_inv in E3. apply Rabs_le. lra.
Qed.
Definition ends (st : list (R * R)) : Prop := exists n r, f_run rnd disj subs n st = inr r.
Lemma ends_turn st st' : f_turn rnd disj subs st = inl st' -> ends st' -> ends st.
Proof. intros T (n & r & H). exists (S n), r. cbn [f_run]. rewrite T. exact H. Qed.
Lemma ends_now st r : f_turn rnd disj subs st = inr r -> ends st.
Proof. intros T. exists 1%nat, r. cbn [f_run]. rewrite T. reflexivity. Qed.
Lemma ends_wide : forall k l u r, dbl l -> dbl u -> a <= l -> l <= u -> u <= b -> (u - l) * (5 / 8) ^ k <= delta -> ends r -> ends ((l, u) :: r).
Proof.
  assert (Dp : 0 < delta) by (pose proof (bpow_gt_0 radix2 (e - 46)); lra).
  induction k as [|k IH]; intros l u r Dl Du Ha Hlu Hb W E.
  - destruct (Dec l u Ha Hlu Hb ltac:(cbn in W; lra)) as [X|X].
    + eapply ends_now. cbn [f_turn]. rewrite X. reflexivity.
    + destruct (disj l u) eqn:D; [eapply ends_now; cbn [f_turn]; rewrite D; reflexivity|].
      eapply ends_turn; [cbn [f_turn]; rewrite D, X; reflexivity|exact E].
  - destruct (disj l u) eqn:D; [eapply ends_now; cbn [f_turn]; rewrite D; reflexivity|].
    destruct (subs l u) eqn:X; [eapply ends_turn; [cbn [f_turn]; rewrite D, X; reflexivity|exact E]|].
    destruct (Rltb (f_diam rnd l u) eps_contains) eqn:Y.
    { eapply ends_now. cbn [f_turn]. rewrite D, X, Y. reflexivity. }
    eapply ends_turn; [cbn [f_turn]; rewrite D, X, Y; reflexivity|].
    assert (Wd : delta < u - l). { apply Rnot_le_lt. intros C. destruct (Dec l u Ha Hlu Hb C); congruence. }
    pose proof (mid_between l u Dl Du (split_wide l u Y)) as M. pose proof (f_mid_dbl l u) as Dm. pose proof (mid_near l u Ha Hlu Hb) as N. apply Rabs_le_inv in N.
    set (m := f_mid rnd l u) in *. clearbody m. cbn [pow] in W.
    assert (Pk : 0 < (5 / 8) ^ k) by (apply pow_lt; lra).
    assert (T : forall w, w <= (u - l) * (5 / 8) -> w * (5 / 8) ^ k <= delta).
    { intros w Hw. eapply Rle_trans; [apply Rmult_le_compat_r; [lra|exact Hw]|]. rewrite Rmult_assoc. exact W. }
    apply IH; auto; [lra..|apply T; lra|]. apply IH; auto; [lra..|apply T; lra].
Qed.
Lemma run_ends : dbl a -> dbl b -> a <= b -> ends [(a, b)].
Proof.
  intros Da Db Hab. assert (Dp : 0 < delta) by (pose proof (bpow_gt_0 radix2 (e - 46)); lra).
  assert (exists k, (b - a) * (5 / 8) ^ k <= delta) as [k Hk].
  { destruct (pow_lt_1_zero (5 / 8) ltac:(rewrite Rabs_right; lra) (delta / (b - a + 1))) as [k Hk].
    { apply Rdiv_lt_0_compat; lra. }
    exists k. specialize (Hk k (le_n k)). rewrite Rabs_right in Hk by (apply Rle_ge, pow_le; lra).
    apply Rle_trans with ((b - a + 1) * (5 / 8) ^ k); [apply Rmult_le_compat_r; [apply pow_le; lra|lra]|].
    apply Rmult_lt_compat_l with (r := b - a + 1) in Hk; [|lra]. replace ((b - a + 1) * (delta / (b - a + 1))) with delta in Hk by (field; lra). lra. }
  apply (ends_wide k); auto; try lra. exists 1%nat, YES. reflexivity.
Qed.
End Answer.
End Rounding.

(** ** C87 *)
Lemma tests1 f tr cod : (forall i t, In t i -> In (f t) (tr i)) -> forall l u, l <= u ->
  (disj1 tr cod l u = true -> forall t, l <= t <= u -> ~ In (f t) cod) /\ (subs1 tr cod l u = true -> forall t, l <= t <= u -> In (f t) cod).
Proof.
  intros Htr l u Hlu. assert (E : forall t, l <= t <= u -> In (f t) (tr (bnd l u))) by (intros t Ht; apply Htr, In_bnd; lra). split.
  - unfold disj1. intros H t Ht C. destruct (intersects (tr (bnd l u)) cod) eqn:X; [discriminate|]. rewrite intersects_false in X. apply (X (f t)); auto.
  - unfold subs1. intros H t Ht. apply is_subset_sub in H. apply H, E, Ht.
Qed.
(** the verdict is reliable *)
Theorem C87_verdict : forall rnd, Valid_rnd rnd -> forall f tr s n r, (forall i t, In t i -> In (f t) (tr i)) ->
  dbl (s_lb s) -> dbl (s_ub s) -> s_lb s < s_ub s -> sub (s_in s) (s_cod s) -> sub (s_out s) (s_cod s) ->
  f_contains rnd tr s n = Some r -> (r = YES -> slice_has s f) /\ (r = NO -> ~ slice_has s f).
Proof.
  intros rnd VR f tr s n r Htr Dl Du Hlt Si So H. unfold f_contains in H.
  assert (A : forall t, slice_has s f -> s_lb s <= t <= s_ub s -> In (f t) (s_cod s)).
  { intros t (F1 & F2 & F3) Ht. destruct (Req_dec t (s_lb s)) as [->|N1]; [apply Si, F1|]. destruct (Req_dec t (s_ub s)) as [->|N2]; [apply So, F2|]. apply F3. lra. }
  destruct (intersects (tr (s_dom s)) (s_cod s)) eqn:E1; cbn [negb orb] in H.
  2:{ injection H as <-. split; [discriminate|]. intros _ F. rewrite intersects_false in E1.
      apply (E1 (f (s_lb s))). apply Htr; cbn; lra. apply A; [exact F|lra]. }
  destruct (intersects (tr (pt (s_lb s))) (s_in s)) eqn:E2; cbn [negb orb] in H.
  2:{ injection H as <-. split; [discriminate|]. intros _ (F1 & F2 & F3). rewrite intersects_false in E2.
      apply (E2 (f (s_lb s))); auto. apply Htr, In_pt; auto. }
  destruct (intersects (tr (pt (s_ub s))) (s_out s)) eqn:E3; cbn [negb orb] in H.
  2:{ injection H as <-. split; [discriminate|]. intros _ (F1 & F2 & F3). rewrite intersects_false in E3.
      apply (E3 (f (s_ub s))); auto. apply Htr, In_pt; auto. }
  destruct (is_subset (tr (pt (s_lb s))) (s_in s)) eqn:E4; cbn [negb orb] in H; [|injection H as <-; split; discriminate].
  destruct (is_subset (tr (pt (s_ub s))) (s_out s)) eqn:E5; cbn [negb orb] in H; [|injection H as <-; split; discriminate].
  apply is_subset_sub in E4, E5.
  assert (G1 : In (f (s_lb s)) (s_in s)) by (apply E4, Htr, In_pt; auto).
  assert (G2 : In (f (s_ub s)) (s_out s)) by (apply E5, Htr, In_pt; auto).
  destruct (is_subset (tr (s_dom s)) (s_cod s)) eqn:E6.
  { apply is_subset_sub in E6. injection H as <-. split; [|discriminate]. intros _. refine (conj G1 (conj G2 _)).
    intros t Ht. apply E6, Htr. cbn; lra. }
  destruct (f_run rnd (disj1 tr (s_cod s)) (subs1 tr (s_cod s)) n [(s_lb s, s_ub s)]) as [st|q] eqn:E7; [discriminate|]. injection H as ->.
  pose proof (run_verdict rnd (disj1 tr (s_cod s)) (subs1 tr (s_cod s)) (fun t => In (f t) (s_cod s)) (s_lb s) (s_ub s)) as V.
  destruct (fun H1 H2 => V H1 H2 n [(s_lb s, s_ub s)] r) as [V1 V2]; [| | |exact E7|].
  - intros l u _ Hlu _ D. exists l. split; [lra|]. apply (proj1 (tests1 f tr (s_cod s) Htr l u Hlu) D). lra.
  - intros l u _ Hlu _ D. apply (proj2 (tests1 f tr (s_cod s) Htr l u Hlu) D).
  - split.
    + intros l u [X|[]]. injection X as <- <-. repeat split; auto; lra.
    + intros t Ht. right. exists (s_lb s), (s_ub s). split; [left; reflexivity|exact Ht].
  - split.
    + intros Hr. refine (conj G1 (conj G2 _)). intros t Ht. apply V1; [exact Hr|lra].
    + intros Hr F. destruct (V2 Hr) as (t & Ht & N). apply N, A; auto.
Qed.

(** a trajectory that leaves the slice and comes back at [ts], sharply evaluated after [ts], gets no answer *)
Theorem C87_never : forall rnd, Valid_rnd rnd -> forall f tr s ts, (forall i t, In t i -> In (f t) (tr i)) ->
  dbl (s_lb s) -> dbl (s_ub s) -> s_lb s < ts <= s_ub s -> bpow radix2 (-1000) <= ts ->
  sub (tr (pt (s_lb s))) (s_in s) -> wf (tr (pt (s_lb s))) -> sub (tr (pt (s_ub s))) (s_out s) -> wf (tr (pt (s_ub s))) ->
  (forall l, s_lb s <= l -> l < ts -> exists t, l <= t <= ts /\ ~ In (f t) (s_cod s)) ->
  (forall l u, ts <= l -> l <= u -> u <= s_ub s -> wf (tr (bnd l u)) /\ sub (tr (bnd l u)) (s_cod s)) ->
  ~ slice_has s f /\ forall n, f_contains rnd tr s n = None.
Proof.
  intros rnd VR f tr s ts Htr Dl Du Hts Big Si Wi So Wo Out Right.
  assert (Inr : forall t, ts <= t <= s_ub s -> In (f t) (s_cod s)).
  { intros t Ht. destruct (Right t t) as [_ X]; [lra..|]. apply X, Htr, In_bnd; lra. }
  split.
  { intros (F1 & F2 & F3). destruct (Out ((s_lb s + ts) / 2)) as (t & Ht & N); [lra..|]. apply N.
    destruct (Req_dec t ts) as [->|Q]; [apply Inr; lra|]. apply F3. lra. }
  intros n. unfold f_contains.
  assert (E1 : intersects (tr (s_dom s)) (s_cod s) = true).
  { destruct (intersects (tr (s_dom s)) (s_cod s)) eqn:E; [reflexivity|]. exfalso. rewrite intersects_false in E.
    apply (E (f ts)); [apply Htr; cbn; lra|apply Inr; lra]. }
  assert (E2 : intersects (tr (pt (s_lb s))) (s_in s) = true).
  { destruct (intersects (tr (pt (s_lb s))) (s_in s)) eqn:E; [reflexivity|]. exfalso. rewrite intersects_false in E.
    assert (In (f (s_lb s)) (tr (pt (s_lb s)))) by (apply Htr, In_pt; reflexivity). apply (E (f (s_lb s))); auto. }
  assert (E3 : intersects (tr (pt (s_ub s))) (s_out s) = true).
  { destruct (intersects (tr (pt (s_ub s))) (s_out s)) eqn:E; [reflexivity|]. exfalso. rewrite intersects_false in E.
    assert (In (f (s_ub s)) (tr (pt (s_ub s)))) by (apply Htr, In_pt; reflexivity). apply (E (f (s_ub s))); auto. }
  assert (E4 : is_subset (tr (pt (s_lb s))) (s_in s) = true) by (apply is_subset_spec; auto).
  assert (E5 : is_subset (tr (pt (s_ub s))) (s_out s) = true) by (apply is_subset_spec; auto).
  assert (E6 : is_subset (tr (s_dom s)) (s_cod s) = false).
  { destruct (is_subset (tr (s_dom s)) (s_cod s)) eqn:E; [|reflexivity]. exfalso. apply is_subset_sub in E.
    destruct (Out (s_lb s)) as (t & Ht & N); [lra..|]. apply N, E, Htr. cbn. lra. }
  rewrite E1, E2, E3, E4, E5, E6. cbn [negb orb].
  destruct (stuck_run rnd (disj1 tr (s_cod s)) (subs1 tr (s_cod s)) (s_lb s) (s_ub s) ts Big) with (n := n) (st := [(s_lb s, s_ub s)]) as (st & ->); [| | |reflexivity].
  - intros l u Ha Hl Hu Hb. split.
    + destruct (disj1 tr (s_cod s) l u) eqn:X; [|reflexivity]. exfalso. apply (proj1 (tests1 f tr (s_cod s) Htr l u ltac:(lra)) X u); [lra|apply Inr; lra].
    + destruct (subs1 tr (s_cod s) l u) eqn:X; [|reflexivity]. exfalso. destruct (Out l Ha Hl) as (t & Ht & N). apply N.
      apply (proj2 (tests1 f tr (s_cod s) Htr l u ltac:(lra)) X t). lra.
  - intros l u Hl Hlu Hb. destruct (Right l u Hl Hlu Hb) as [W Sb].
    assert (subs1 tr (s_cod s) l u = true) by (apply is_subset_spec; auto). split; [|assumption].
    destruct (disj1 tr (s_cod s) l u) eqn:X; [|reflexivity]. exfalso. apply (proj1 (tests1 f tr (s_cod s) Htr l u Hlu) X u); [lra|apply Inr; lra].
  - exists [], (s_lb s), (s_ub s), []. refine (conj eq_refl (conj _ _)); [intros ? ? []|]. repeat split; auto; lra.
Qed.

(** it answers when the intervals that are not too short compared to the instants are decided *)
Theorem C87_answers_partial : forall rnd, Valid_rnd rnd -> forall tr s e delta, (-900 <= e)%Z ->
  dbl (s_lb s) -> dbl (s_ub s) -> s_lb s <= s_ub s -> Rabs (s_lb s) <= bpow radix2 e -> Rabs (s_ub s) <= bpow radix2 e ->
  bpow radix2 (e - 46) <= delta ->
  (forall l u, s_lb s <= l -> l <= u -> u <= s_ub s -> u - l <= delta ->
     intersects (tr (bnd l u)) (s_cod s) = false \/ is_subset (tr (bnd l u)) (s_cod s) = true) ->
  exists n r, f_contains rnd tr s n = Some r.
Proof.
  intros rnd VR tr s e delta He Dl Du Hlu Bl Bu Bd Dec. 
  destruct (run_ends rnd (disj1 tr (s_cod s)) (subs1 tr (s_cod s)) (s_lb s) (s_ub s) delta e He Bl Bu Bd) as (n & r & H); auto.
  - intros l u H1 H2 H3 H4. unfold disj1, subs1. destruct (Dec l u H1 H2 H3 H4) as [-> | ->]; auto.
  - exists n. unfold f_contains. destruct (_ || _); [eauto|]. destruct (_ || _); [eauto|]. destruct (is_subset _ (s_cod s)); [eauto|]. rewrite H. eauto.
Qed.

(** the same for a slice of codac2 *)
Theorem C87_codac2_never : forall rnd, Valid_rnd rnd -> forall m f tr pl nl s a b ts,
  (forall i, length (tr i) = m /\ forall t, In t i -> inb (f t) (tr i)) -> length (v_x s) = m ->
  dbl a -> dbl b -> a < ts <= b -> bpow radix2 (-1000) <= ts ->
  b_is_subset (tr (pt a)) (v_side pl s) = true -> length (v_side pl s) = m ->
  b_is_subset (tr (pt b)) (v_side nl s) = true -> length (v_side nl s) = m ->
  (forall l, a <= l -> l < ts -> exists t, l <= t <= ts /\ ~ inb (f t) (v_x s)) ->
  (forall l u, ts <= l -> l <= u -> u <= b -> b_is_subset (tr (bnd l u)) (v_x s) = true) ->
  forall n, f_contains2 rnd tr pl nl s a b n = None.
Proof.
  intros rnd VR m f tr pl nl s a b ts Htr Lc Da Db Hts Big Si Li So Lo Out Right n.
  assert (E : forall l u t, l <= t <= u -> inb (f t) (tr (bnd l u))) by (intros l u t Ht; apply Htr, In_bnd; lra).
  assert (Len : forall i, length (tr i) = length (v_x s)) by (intros i; rewrite Lc; apply Htr).
  assert (Inr : forall t, ts <= t <= b -> inb (f t) (v_x s)).
  { intros t Ht. apply (subset_in _ _ _ (Right t t ltac:(lra) ltac:(lra) ltac:(lra))); [apply Len|apply E; lra]. }
  assert (Ei : inb (f a) (tr (pt a))) by (apply Htr, In_pt; reflexivity).
  assert (Eo : inb (f b) (tr (pt b))) by (apply Htr, In_pt; reflexivity).
  assert (E1 : forall l u t, l <= t <= u -> inb (f t) (v_x s) -> b_intersects (v_x s) (tr (bnd l u)) = true) by (intros l u t Ht X; apply (intersects_in _ _ (f t) X), E, Ht).
  assert (E6 : forall l u t, l <= t <= u -> ~ inb (f t) (v_x s) -> b_is_subset (tr (bnd l u)) (v_x s) = false).
  { intros l u t Ht N. destruct (b_is_subset (tr (bnd l u)) (v_x s)) eqn:X; [|reflexivity]. exfalso. apply N. apply (subset_in _ _ _ X); [apply Len|apply E, Ht]. }
  unfold f_contains2. rewrite (E1 a b b) by (try apply Inr; lra).
  rewrite (intersects_in (v_side pl s) (tr (pt a)) (f a)) by (exact Ei || (apply (subset_in _ _ _ Si); [rewrite Li; apply Htr|exact Ei])).
  rewrite (intersects_in (v_side nl s) (tr (pt b)) (f b)) by (exact Eo || (apply (subset_in _ _ _ So); [rewrite Lo; apply Htr|exact Eo])).
  rewrite Si, So. destruct (Out a) as (t0 & Ht0 & N0); [lra..|]. rewrite (E6 a b t0) by (auto; lra). cbn [negb orb].
  destruct (stuck_run rnd (disj2 tr (v_x s)) (subs2 tr (v_x s)) a b ts Big) with (n := n) (st := [(a, b)]) as (st & ->); [| | |reflexivity].
  - intros l u Ha Hl Hu Hb. unfold disj2, subs2. rewrite (E1 l u u) by (try apply Inr; lra). destruct (Out l Ha Hl) as (t & Ht & N).
    rewrite (E6 l u t) by (auto; lra). auto.
  - intros l u Hl Hlu Hb. unfold disj2, subs2. rewrite (Right l u Hl Hlu Hb), (E1 l u u) by (try apply Inr; lra). auto.
  - exists [], a, b, []. refine (conj eq_refl (conj _ _)); [intros ? ? []|]. repeat split; auto; lra.
Qed.

(** ** A concrete slice: the trajectory goes from 1 up to 5/2 and back to 1; the slice is [0,2] *)
Definition tent (t : R) : R := 5 / 2 - Rabs (t - 5 / 2).
Definition tent_eval (i : itv) : itv :=
  match i with
  | Itv (Some l) (Some u) =>
    if Rle_dec (5 / 2) l then Itv (Some (tent u)) (Some (tent l))
    else if Rle_dec u (5 / 2) then Itv (Some (tent l)) (Some (tent u))
    else Itv (Some (Rmin (tent l) (tent u))) (Some (5 / 2))
  | _ => ALL
  end.
Lemma tent_l t : t <= 5 / 2 -> tent t = t. Proof. intros H. unfold tent. rewrite Rabs_left1; lra. Qed.
Lemma tent_r t : 5 / 2 <= t -> tent t = 5 - t. Proof. intros H. unfold tent. rewrite Rabs_right; lra. Qed.
Lemma tent_incl i t : In t i -> In (tent t) (tent_eval i).
Proof.
  intros H. destruct i as [|[l|] [u|]]; cbn in *; try tauto. destruct (Rle_dec (5 / 2) l) as [A|A].
  - rewrite !tent_r by lra. cbn. lra.
  - destruct (Rle_dec u (5 / 2)) as [B|B]; [rewrite !tent_l by lra; cbn; lra|]. rewrite (tent_l l), (tent_r u) by lra. cbn.
    destruct (Rle_dec t (5 / 2)) as [C|C]; [rewrite tent_l by lra|rewrite tent_r by lra];
      pose proof (Rmin_l l (5 - u)); pose proof (Rmin_r l (5 - u)); lra.
Qed.
Definition sl2 : slice := mkS 1 4 (I2 0 2) (I2 0 2) (I2 0 2).
Lemma dbl_1 : dbl 1. Proof. change 1 with (bpow radix2 0). apply bpow_dbl; lia. Qed.
Lemma dbl_4 : dbl 4. Proof. change 4 with (bpow radix2 2). apply bpow_dbl; lia. Qed.
Theorem C87_refuted : exists f tr s, (forall i t, In t i -> In (f t) (tr i)) /\ dbl (s_lb s) /\ dbl (s_ub s) /\
  ~ slice_has s f /\ (exists l u, s_lb s < l /\ l < u /\ u < s_ub s /\ forall t, l <= t <= u -> intersects (tr (bnd t t)) (s_cod s) = false) /\
  forall rnd, Valid_rnd rnd -> forall n, f_contains rnd tr s n = None.
Proof.
  exists tent, tent_eval, sl2.
  assert (K : forall rnd, Valid_rnd rnd -> ~ slice_has sl2 tent /\ forall n, f_contains rnd tent_eval sl2 n = None).
  { intros rnd VR. apply C87_never with (ts := 3); auto using tent_incl, dbl_1, dbl_4; cbn [sl2 s_lb s_ub s_cod s_in s_out].
    - lra.
    - apply Rle_trans with (bpow radix2 0); [apply bpow_le; lia|cbn; lra].
    - unfold pt, tent_eval. destruct (Rle_dec (5 / 2) 1); [lra|]. destruct (Rle_dec 1 (5 / 2)); [|lra]. rewrite tent_l by lra. intros v V. cbn in *. lra.
    - unfold pt, tent_eval. destruct (Rle_dec (5 / 2) 1); [lra|]. destruct (Rle_dec 1 (5 / 2)); [|lra]. cbn. lra.
    - unfold pt, tent_eval. destruct (Rle_dec (5 / 2) 4); [|lra]. rewrite tent_r by lra. intros v V. cbn in *. lra.
    - unfold pt, tent_eval. destruct (Rle_dec (5 / 2) 4); [|lra]. cbn. lra.
    - intros l Hl Hts. exists (Rmax l (11 / 4)). pose proof (Rmax_l l (11 / 4)). pose proof (Rmax_r l (11 / 4)).
      assert (Rmax l (11 / 4) < 3) by (apply Rmax_lub_lt; lra). split; [lra|]. rewrite tent_r by lra. cbn. lra.
    - intros l u Hl Hlu Hu. rewrite <- bnd_eq by exact Hlu. unfold tent_eval. destruct (Rle_dec (5 / 2) l); [|lra].
      rewrite !tent_r by lra. split; [cbn; lra|]. intros v V. cbn in *. lra. }
  refine (conj tent_incl (conj dbl_1 (conj dbl_4 (conj _ (conj _ _))))).
  - apply (K Zfloor). typeclasses eauto.
  - exists (9 / 4), (5 / 2). cbn [sl2 s_lb s_ub s_cod]. refine (conj _ (conj _ (conj _ _))); [lra..|]. intros t Ht. apply intersects_false. intros v A B.
    rewrite <- bnd_eq in A by lra. unfold tent_eval in A. destruct (Rle_dec (5 / 2) t).
    + assert (t = 5 / 2) as -> by lra. rewrite tent_r in A by lra. cbn in *. lra.
    + destruct (Rle_dec t (5 / 2)); [|lra]. rewrite tent_l in A by lra. cbn in *. lra.
  - intros rnd VR. apply (K rnd VR).
Qed.

(** a pessimistic evaluation of the identity; the whole domain is not decided *)
Definition wide_eval (i : itv) : itv :=
  match i with Itv (Some l) (Some u) => Itv (Some (l - 2 * (u - l))) (Some (u + 2 * (u - l))) | _ => ALL end.
Example C87_answers_ex : let s := mkS 1 4 (I2 0 5) (I2 0 5) (I2 0 5) in
  is_subset (wide_eval (s_dom s)) (s_cod s) = false /\ exists n r, f_contains Zceil wide_eval s n = Some r.
Proof.
  intros s. split; [cbn; reval; reflexivity|].
  apply (C87_answers_partial Zceil ltac:(typeclasses eauto) wide_eval s 2 (1 / 8)); cbn [s s_lb s_ub s_cod]; auto using dbl_1, dbl_4; try lia; try lra.
  - rewrite Rabs_right by lra. cbn. lra.
  - rewrite Rabs_right by lra. cbn. lra.
  - apply Rle_trans with (bpow radix2 (-3)); [apply bpow_le; lia|cbn; lra].
  - intros l u Hl Hlu Hu W. right. rewrite <- bnd_eq by exact Hlu. cbn [wide_eval]. apply is_subset_spec; [cbn; lra|]. intros v V. cbn in *. lra.
Qed.
Example C87_verdict_ex : f_contains Zceil (fun _ => pt 1) sl2 1 = Some YES /\ f_contains Zceil (fun _ => pt 3) sl2 1 = Some NO.
Proof. unfold f_contains, intersects. cbn. reval. cbn. reval. auto. Qed.
(** a slice of codac2 with two components *)
Example C87_codac2_ex : forall rnd, Valid_rnd rnd -> forall n,
  f_contains2 rnd (fun i => [tent_eval i; pt 0]) [] [] (VS (I2 1 4) [I2 0 2; I2 0 1]) 1 4 n = None.
Proof.
  intros rnd VR. apply (C87_codac2_never rnd VR 2 (fun t => [tent t; 0])) with (ts := 3); cbn [v_x v_side]; auto using dbl_1, dbl_4.
  - intros i. split; [reflexivity|]. intros t Ht. constructor; [apply tent_incl, Ht|constructor; [apply In_pt; reflexivity|constructor]].
  - lra.
  - apply Rle_trans with (bpow radix2 0); [apply bpow_le; lia|cbn; lra].
  - unfold pt, tent_eval. destruct (Rle_dec (5 / 2) 1); [lra|]. destruct (Rle_dec 1 (5 / 2)); [|lra]. rewrite tent_l by lra. unfold b_is_subset. cbn. reval. reflexivity.
  - unfold pt, tent_eval. destruct (Rle_dec (5 / 2) 4); [|lra]. rewrite tent_r by lra. unfold b_is_subset. cbn. reval. reflexivity.
  - intros l Hl Hts. exists (Rmax l (11 / 4)). pose proof (Rmax_l l (11 / 4)). pose proof (Rmax_r l (11 / 4)).
    assert (Rmax l (11 / 4) < 3) by (apply Rmax_lub_lt; lra). split; [lra|]. rewrite tent_r by lra. intros X. inversion X as [|? ? ? ? Y _]. cbn in Y. lra.
  - intros l u Hl Hlu Hu. rewrite <- bnd_eq by exact Hlu. unfold tent_eval. destruct (Rle_dec (5 / 2) l); [|lra].
    rewrite !tent_r by lra. unfold b_is_subset. cbn. reval. reflexivity.
Qed.
Print Assumptions C87_verdict.
Print Assumptions C87_never.
Print Assumptions C87_codac2_never.
Print Assumptions C87_answers_partial.
Print Assumptions C87_refuted.
