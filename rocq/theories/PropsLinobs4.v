(** * C101: gates, counter-examples and concrete cases *)

From Coq Require Import Reals Lra Lia Bool List Arith.
Import ListNotations.
From Verif Require Import Itv Concrete Arith DynSpec Linobs LinobsFacts PropsLinobs PropsLinobs2 Codac2 PropsTDomain Linobs2 PropsLinobs3.
Open Scope R_scope.

(** ** The gates only shrink *)
(** same instants, and the gates are included in the initial ones *)
Definition gle {c : linobs} (pin : vec -> po (l_po c) -> Prop) (s s' : cell c) : Prop :=
  k_t c s' = k_t c s /\ (is_degenerated (k_t c s) = true -> forall z, pin z (k_x c s') -> pin z (k_x c s)).
Section GATES.
  Variables (c : linobs) (pe : po (l_po c) -> bool) (p0 : po (l_po c)).
  (** the properties of polygons that are kept by the intersections *)
  Definition closed (Q : po (l_po c) -> Prop) : Prop := (forall p q, Q p -> Q (p_inter _ p q)) /\ (forall p, Q p -> Q (p_simplify _ p)) /\ Q p0.
  Definition R_ (s s' : cell c) : Prop := k_t c s' = k_t c s /\ (is_degenerated (k_t c s) = true -> forall Q, closed Q -> Q (k_x c s) -> Q (k_x c s')).
  Lemma gle_refl s : R_ s s.
  Proof. split; auto. Qed.
  Lemma gle_trans s1 s2 s3 : R_ s1 s2 -> R_ s2 s3 -> R_ s1 s3.
  Proof. intros [E1 K1] [E2 K2]. split; [congruence|]. intros G Q HQ Hz. apply K2; [rewrite E1; exact G|exact HQ|apply K1; [exact G|exact HQ|exact Hz]]. Qed.
  Lemma gles_refl l : Forall2 R_ l l.
  Proof. induction l; constructor; auto using gle_refl. Qed.
  Lemma gles_trans l1 l2 l3 : Forall2 R_ l1 l2 -> Forall2 R_ l2 l3 -> Forall2 R_ l1 l3.
  Proof. intros F. revert l3. induction F; intros l3 G; inversion G; subst; constructor; eauto using gle_trans. Qed.
  Definition zle (i j : kiter c) : Prop := let '(rl, s, r) := i in let '(rl', s', r') := j in Forall2 R_ rl rl' /\ R_ s s' /\ Forall2 R_ r r'.
  Lemma zle_refl i : zle i i.
  Proof. destruct i as [[rl s] r]. refine (conj (gles_refl _) (conj (gle_refl _) (gles_refl _))). Qed.
  Lemma zle_trans i j k : zle i j -> zle j k -> zle i k.
  Proof.
    destruct i as [[a1 a2] a3], j as [[b1 b2] b3], k as [[d1 d2] d3]. intros (A1 & A2 & A3) (B1 & B2 & B3).
    refine (conj _ (conj _ _)); eauto using gles_trans, gle_trans.
  Qed.
  Lemma zle_empty i : zle i (k_empty c p0 i).
  Proof.
    assert (W : forall s, R_ s (k_set c s p0)) by (intros s; split; [reflexivity|]; intros _ Q HQ _; apply HQ).
    assert (F : forall l, Forall2 R_ l (map (fun s => k_set c s p0) l)) by (induction l; constructor; auto).
    destruct i as [[rl s] r]. cbn. auto.
  Qed.
  Lemma set_side_le l s s' l' : k_set_side c l s = (s', l') -> Forall2 R_ l l' /\ R_ s s'.
  Proof.
    unfold k_set_side. destruct l as [|g q]; [intros [= <- <-]; split; [constructor|apply gle_refl]|].
    destruct (k_gate c s); [|destruct (k_gate c g)]; intros [= <- <-].
    - split; [apply gles_refl|]. split; [reflexivity|]. intros _ Q HQ Hz. apply HQ. exact Hz.
    - split; [|apply gle_refl]. constructor; [|apply gles_refl]. split; [reflexivity|]. intros _ Q HQ Hz. apply HQ. exact Hz.
    - split; [apply gles_refl|apply gle_refl].
  Qed.
  Lemma assign_le p i : (let '(_, s, _) := i in is_degenerated (k_t c s) = true -> forall Q, closed Q -> Q (k_x c s) -> Q p) -> zle i (k_assign c pe p0 p i).
  Proof.
    destruct i as [[rl s] r]. intros Hp. unfold k_assign.
    destruct (k_set_side c rl (k_set c s p)) as [s1 rl1] eqn:E1. destruct (k_set_side c r s1) as [s2 r1] eqn:E2.
    apply set_side_le in E1, E2. destruct E1 as [A1 A2], E2 as [B1 B2].
    assert (Q : R_ s (k_set c s p)) by (split; [reflexivity|exact Hp]).
    assert (Z : zle (rl, s, r) (rl1, s2, r1)) by (refine (conj A1 (conj _ B1)); eauto using gle_trans).
    destruct (k_is_empty c pe (rl1, s2, r1)); [|exact Z]. eapply zle_trans; [exact Z|apply zle_empty].
  Qed.
  Lemma contract_le fwd bwd env iu i j : (let '(_, s, _) := i in k_gate c s = false) -> k_contract c pe p0 fwd bwd env iu i = Some j -> zle i j.
  Proof.
    destruct i as [[rl s] r], iu as [[rlu su] ru]. intros Gs. unfold k_contract. destruct (_ || _); [intros [= <-]; apply (zle_empty (rl, s, r))|]. rewrite Gs.
    assert (J1 : forall j, (if fwd then k_fwd c pe p0 (ts_x su) (rl, s, r) else @Some (kiter c) (rl, s, r)) = Some j -> zle (rl, s, r) j).
    { intros j1. destruct fwd; [|intros [= <-]; apply zle_refl]. unfold k_fwd. destruct r as [|g r']; [intros [= <-]; apply zle_refl|]. destruct (k_gate c g); [|discriminate].
      pose proof (assign_le (fwd_gate c (k_x c g) (k_side c rl s) (k_dt c s) (ts_x su)) (s :: rl, g, r')) as Q. cbv beta in Q.
      destruct (k_assign c pe p0 _ (s :: rl, g, r')) as [[l' g'] r'']. destruct l' as [|s' l']; [discriminate|]. intros [= <-].
      destruct Q as (Q1 & Q2 & Q3); [intros _ S HQ Hz; apply HQ; apply HQ; exact Hz|]. inversion Q1; subst. refine (conj _ (conj _ _)); auto. }
    assert (J2 : forall i j, (if bwd then k_bwd c pe p0 (ts_x su) i else @Some (kiter c) i) = Some j -> zle i j).
    { intros [[rl1 s1] r1] j1. destruct bwd; [|intros [= <-]; apply zle_refl]. unfold k_bwd. destruct rl1 as [|g r']; [intros [= <-]; apply zle_refl|]. destruct (k_gate c g); [|discriminate].
      pose proof (assign_le (bwd_gate c (k_x c g) (k_side c r1 s1) (k_dt c s1) (ts_x su)) (r', g, s1 :: r1)) as Q. cbv beta in Q.
      destruct (k_assign c pe p0 _ (r', g, s1 :: r1)) as [[l' g'] r'']. destruct r'' as [|s' r'']; [discriminate|]. intros [= <-].
      destruct Q as (Q1 & Q2 & Q3); [intros _ S HQ Hz; apply HQ; apply HQ; exact Hz|]. inversion Q3; subst. refine (conj _ (conj _ _)); auto. }
    assert (J3 : forall rl s r j, k_gate c s = false -> k_env c pe p0 (ts_x su) (rl, s, r) = Some j -> zle (rl, s, r) j).
    { intros rl1 s1 r1 j1 G1. unfold k_env. destruct rl1 as [|g r']; [discriminate|]. intros E. injection E as <-. apply (assign_le (polygon_envelope c (k_x c g) (k_dt c s1) (ts_x su)) (g :: r', s1, r1)). intros G. unfold k_gate in G1. congruence. }
    intros E. destruct (if fwd then k_fwd c pe p0 (ts_x su) (rl, s, r) else @Some (kiter c) (rl, s, r)) as [i1|] eqn:E1; [|discriminate].
    specialize (J1 i1 eq_refl). destruct (if bwd then k_bwd c pe p0 (ts_x su) i1 else @Some (kiter c) i1) as [i2|] eqn:E2; [|discriminate].
    specialize (J2 i1 i2 E2). pose proof (zle_trans _ _ _ J1 J2) as J. destruct env; [|injection E as <-; exact J].
    destruct i2 as [[rl2 s2] r2]. eapply zle_trans; [exact J|]. apply (J3 rl2 s2 r2 j); auto. destruct J as (_ & [J _] & _). unfold k_gate in *. rewrite J. exact Gs.
  Qed.
  Lemma rev_append_le rl l rl' l' : Forall2 R_ rl rl' -> Forall2 R_ l l' -> Forall2 R_ (rev_append rl l) (rev_append rl' l').
  Proof. intros F. revert l l'. induction F; intros m m' G; cbn [rev_append]; auto. Qed.
  Lemma fwd_loop_le env : forall lu rlu rl l y, fwd_loop c pe p0 env rlu lu rl l = Some y -> Forall2 R_ (rev_append rl l) y.
  Proof.
    induction lu as [|su ru IH]; intros rlu rl l y; cbn [fwd_loop]; [intros [= <-]; apply gles_refl|].
    destruct l as [|s r]; [intros [= <-]; apply gles_refl|]. destruct (k_gate c s || k_unbounded c s) eqn:G; [intros E; apply IH in E; exact E|].
    apply orb_false_iff in G. destruct (k_contract c pe p0 true false env (rlu, su, ru) (rl, s, r)) as [[[rl1 s1] r1]|] eqn:E1; [|discriminate].
    intros E. apply IH in E. apply contract_le in E1; [|apply G]. destruct E1 as (A1 & A2 & A3). eapply gles_trans; [|exact E]. cbn [rev_append]. apply rev_append_le; auto.
  Qed.
  Lemma bwd_loop_le env : forall rlu lu rl l y, bwd_loop c pe p0 env rlu lu rl l = Some y -> Forall2 R_ (rev_append rl l) y.
  Proof.
    induction rlu as [|su ru IH]; intros lu rl l y; cbn [bwd_loop]; [intros [= <-]; apply gles_refl|].
    destruct rl as [|s r]; [intros [= <-]; apply gles_refl|]. destruct (k_gate c s || k_unbounded c s) eqn:G; [intros E; apply IH in E; exact E|].
    apply orb_false_iff in G. destruct (k_contract c pe p0 false true env (ru, su, lu) (r, s, l)) as [[[rl1 s1] r1]|] eqn:E1; [|discriminate].
    intros E. apply IH in E. apply contract_le in E1; [|apply G]. destruct E1 as (A1 & A2 & A3). eapply gles_trans; [|exact E]. cbn [rev_append]. apply rev_append_le; auto.
  Qed.
  (** the envelope that is computed for a slice *)
  Lemma assign_x p rl s r : k_gate c s = false -> let '(rl', s', r') := k_assign c pe p0 p (rl, s, r) in k_x c s' = p0 \/ k_x c s' = p.
  Proof.
    intros G. unfold k_assign. assert (Q : forall l s', k_gate c s' = false -> fst (k_set_side c l s') = s').
    { intros [|g q] s' Gs; cbn; auto. rewrite Gs. destruct (k_gate c g); reflexivity. }
    destruct (k_set_side c rl (k_set c s p)) as [s1 rl1] eqn:E1. destruct (k_set_side c r s1) as [s2 r1] eqn:E2.
    pose proof (Q rl (k_set c s p) G) as Q1. rewrite E1 in Q1. cbn [fst] in Q1. subst s1.
    pose proof (Q r (k_set c s p) G) as Q2. rewrite E2 in Q2. cbn [fst] in Q2. subst s2.
    destruct (k_is_empty c pe _); cbn; auto.
  Qed.
  Lemma contract_env fwd bwd iu rl s r j : k_gate c s = false -> k_contract c pe p0 fwd bwd true iu (rl, s, r) = Some j ->
    let '(_, su, _) := iu in let '(_, s', _) := j in
    k_x c s' = p0 \/ exists g q g', rl = g :: q /\ R_ g g' /\ k_x c s' = polygon_envelope c (k_x c g') (k_dt c s) (ts_x su).
  Proof.
    destruct iu as [[rlu su] ru]. intros Gs E.
    destruct (k_contract c pe p0 fwd bwd false (rlu, su, ru) (rl, s, r)) as [i|] eqn:E0.
    - pose proof (contract_le fwd bwd false (rlu, su, ru) (rl, s, r) i Gs E0) as Z. unfold k_contract in E, E0.
      destruct (k_is_empty c pe (rl, s, r) || slice_is_empty (rlu, su, ru)) eqn:N; [injection E as <-; left; reflexivity|]. rewrite Gs in E, E0.
      destruct (if fwd then _ else _) as [i1|]; [|discriminate]. destruct (if bwd then _ else _) as [i2|]; [|discriminate]. injection E0 as ->.
      destruct i as [[rl1 s1] r1]. destruct Z as (Z1 & Z2 & Z3). unfold k_env in E. destruct rl1 as [|g' q']; [discriminate|].
      assert (Ej : k_assign c pe p0 (polygon_envelope c (k_x c g') (k_dt c s1) (ts_x su)) (g' :: q', s1, r1) = j) by congruence. clear E.
      inversion Z1 as [|g x1 q x2 Y1 Y2 Y3 Y4]. clear Z1. subst rl x1 x2. assert (G1 : k_gate c s1 = false) by (unfold k_gate in *; rewrite (proj1 Z2); auto).
      pose proof (assign_x (polygon_envelope c (k_x c g') (k_dt c s1) (ts_x su)) (g' :: q') s1 r1 G1) as X.
      rewrite Ej in X. destruct j as [[l3 s3] r3]. destruct X as [X|X]; [left; auto|right].
      exists g, q, g'. refine (conj eq_refl (conj Y1 _)). rewrite X. unfold k_dt. rewrite (proj1 Z2). reflexivity.
    - exfalso. unfold k_contract in E, E0. destruct (k_is_empty c pe (rl, s, r) || slice_is_empty (rlu, su, ru)) eqn:N; [discriminate|]. rewrite Gs in E, E0.
      destruct (if fwd then _ else _) as [i1|]; [|discriminate]. destruct (if bwd then _ else _) as [i2|]; [|discriminate]. discriminate.
  Qed.
End GATES.
Lemma gates_le c pe p0 fwd bwd env x ul y : linobs2_contract c pe p0 fwd bwd env x ul = Some y -> Forall2 (R_ c p0) x y.
Proof.
  unfold linobs2_contract. destruct (all_gates_defined ul); [|discriminate].
  assert (J : forall y, (if fwd then fwd_loop c pe p0 (env && negb bwd) [] ul [] x else Some x) = Some y -> Forall2 (R_ c p0) x y).
  { intros y1. destruct fwd; [|intros [= <-]; apply gles_refl]. intros E. apply fwd_loop_le in E. exact E. }
  destruct (if fwd then _ else _) as [y1|]; [|discriminate]. specialize (J y1 eq_refl). destruct bwd; [|intros [= <-]; exact J].
  intros E. apply bwd_loop_le in E. rewrite rev_append_rev, rev_involutive, app_nil_r in E. eapply gles_trans; eauto.
Qed.
(** The temporal domain does not change and the polygon of each gate is included in the initial one, when simplify
    does not enlarge the polygons (it does nothing up to 15 vertices). *)
Theorem C101_gates_shrink : forall c pe p0 (pin : vec -> po (l_po c) -> Prop) fwd bwd env x ul y,
  (forall z p q, pin z (p_inter (l_po c) p q) -> pin z p) -> (forall z p, pin z (p_simplify (l_po c) p) -> pin z p) -> (forall z, ~ pin z p0) ->
  linobs2_contract c pe p0 fwd bwd env x ul = Some y -> Forall2 (gle pin) x y.
Proof.
  intros c pe p0 pin fwd bwd env x ul y Hi Hs H0 E. apply gates_le in E. induction E as [|s s' l l' [E1 E2] _ IH]; constructor; auto.
  split; auto. intros G. refine (E2 G (fun p => forall z, pin z p -> pin z (k_x c s)) _ _); [|auto].
  refine (conj _ (conj _ _)); [intros p q K z Hz; apply K; exact (Hi _ _ _ Hz)|intros p K z Hz; apply K; exact (Hs _ _ Hz)|intros z Hz; destruct (H0 z Hz)].
Qed.

(** ** Tubes with one slice *)
Definition three {c : linobs} (h : R) (p q r : po (l_po c)) : list (cell c) := [Cell c (pt 0) p; Cell c (Itv (Some 0) (Some h)) q; Cell c (pt h) r].
Definition uthree (h : R) (U : itv) : list tslice := [TS (pt 0) U; TS (Itv (Some 0) (Some h)) U; TS (pt h) U].
Lemma deg_f h : 0 < h -> is_degenerated (Itv (Some 0) (Some h)) = false.
Proof. intros Hh. cbn. apply Reqb_f. lra. Qed.
Lemma uthree_ok h U : 0 < h -> partition (uthree h U) /\ all_gates_defined (uthree h U) = true /\ is_gate (hd (TS Emp Emp) (uthree h U)) = true.
Proof.
  intros Hh. assert (G1 : forall t, is_gate (TS (pt t) U) = true) by (intros; apply deg_pt_t).
  assert (G2 : is_gate (TS (Itv (Some 0) (Some h)) U) = false) by (apply deg_f; auto).
  refine (conj _ (conj _ (G1 0))).
  - refine (conj _ (conj _ _)); [discriminate| |].
    + intros s [<-|[<-|[<-|[]]]]; [exists 0|exists 0|exists h]; cbn; lra.
    + cbn [linked uthree]. refine (conj (conj _ _) (conj (conj _ _) I)); try (rewrite G2; intros [? ?]; discriminate); [exists 0|exists h]; auto.
  - unfold all_gates_defined. change (t0_tf (uthree h U)) with (Itv (Some 0) (Some h)). rewrite deg_f by auto.
    cbn [uthree length Nat.eqb tl alternate]. rewrite G2, G1. reflexivity.
Qed.
Lemma three_env c pe p0 fwd bwd h p q r U y : 0 < h -> fwd || bwd = true ->
  linobs2_contract c pe p0 fwd bwd true (three h p q r) (uthree h U) = Some y ->
  exists g s g', y = [g; s; g'] /\ k_t c s = Itv (Some 0) (Some h) /\
    (k_x c s = p0 \/ exists p', (forall Q, closed c p0 Q -> Q p -> Q p') /\ k_x c s = polygon_envelope c p' (h - 0) U).
Proof.
  intros Hh Hf. unfold linobs2_contract. rewrite (proj1 (proj2 (uthree_ok h U Hh))).
  set (x := three h p q r).
  assert (F : forall (b : bool) y1, (if fwd then fwd_loop c pe p0 b [] (uthree h U) [] x else Some x) = Some y1 -> Forall2 (R_ c p0) x y1).
  { intros b y1. destruct fwd; [|intros [= <-]; apply gles_refl]. intros E. apply fwd_loop_le in E. exact E. }
  assert (Gs : forall s, k_t c s = Itv (Some 0) (Some h) -> k_gate c s = false /\ k_unbounded c s = false) by (intros s Es; unfold k_gate, k_unbounded; rewrite Es; split; [apply deg_f; auto|auto]).
  destruct bwd.
  - cbn [negb andb]. specialize (F false). destruct (if fwd then fwd_loop c pe p0 false [] (uthree h U) [] x else Some x) as [y1|]; [|discriminate].
    specialize (F y1 eq_refl). unfold x, three in F. inversion F as [|? g1 ? l1 [A1 A2] F1]. subst. inversion F1 as [|? s1 ? l2 [B1 B2] F2]. subst. inversion F2 as [|? g2 ? l3 [C1 C2] F3]. subst.
    inversion F3. subst. clear F F1 F2 F3. cbn [k_t k_x] in *. cbn [rev app uthree bwd_loop]. unfold k_gate at 1. rewrite C1, deg_pt_t. cbn [orb].
    destruct (Gs s1 B1) as [G1 G2]. rewrite G1, G2. cbn [orb].
    destruct (k_contract c pe p0 false true true _ ([g1], s1, [g2])) as [[[rl' s'] r']|] eqn:E; [|discriminate].
    pose proof (contract_le c pe p0 _ _ _ _ ([g1], s1, [g2]) _ G1 E) as (L1 & L2 & L3). pose proof (contract_env c pe p0 _ _ _ [g1] s1 [g2] _ G1 E) as X.
    inversion L1 as [|? g1' ? l4 D1 L4]. subst. inversion L4. subst. inversion L3 as [|? g2' ? l5 D2 L5]. subst. inversion L5. subst.
    cbn [bwd_loop]. rewrite (gate_pt c g1' 0) by (rewrite (proj1 D1); auto). cbn [orb bwd_loop rev_append]. intros [= <-].
    exists g1', s', g2'. refine (conj eq_refl (conj _ _)); [rewrite (proj1 L2); auto|]. destruct X as [X|(g & q0 & g' & [= <- <-] & X1 & X2)]; [auto|right].
    exists (k_x c g'). split; [|rewrite X2; unfold k_dt; rewrite B1; reflexivity]. intros Q HQ Hp. apply X1; auto; [rewrite A1; apply deg_pt_t|]. apply A2; auto. apply deg_pt_t.
  - destruct fwd; [|discriminate]. cbn [negb andb]. clear F. unfold x, three. cbn [uthree fwd_loop]. rewrite (gate_pt c _ 0) by reflexivity. cbn [orb].
    destruct (Gs (Cell c (Itv (Some 0) (Some h)) q) eq_refl) as [G1 G2]. rewrite G1, G2. cbn [orb].
    match goal with |- context [k_contract c pe p0 true false true ?a ?b] => destruct (k_contract c pe p0 true false true a b) as [[[rl' s'] r']|] eqn:E; [|discriminate] end.
    pose proof (contract_le c pe p0 _ _ _ _ ([_], _, [_]) _ G1 E) as (L1 & L2 & L3). pose proof (contract_env c pe p0 _ _ _ [_] _ [_] _ G1 E) as X.
    inversion L1 as [|? g1' ? l4 D1 L4]. subst. inversion L4. subst. inversion L3 as [|? g2' ? l5 D2 L5]. subst. inversion L5. subst.
    cbn [fwd_loop]. rewrite (gate_pt c g2' h) by (rewrite (proj1 D2); auto). cbn [orb fwd_loop rev_append]. intros [= <-].
    exists g1', s', g2'. refine (conj eq_refl (conj _ _)); [rewrite (proj1 L2); auto|]. destruct X as [X|(g & q0 & g' & [= <- <-] & X1 & X2)]; [auto|right].
    exists (k_x c g'). split; [|exact X2]. intros Q HQ Hp. apply X1; auto. apply deg_pt_t.
Qed.

(** The matrix exp(A s) is computed at the two bounds only (lines 27-39) although it is used for all the [s] between
    them (144, 151, 158): for x' = (0 -1; 1 0) x and a slice of 2 pi, the trajectory (cos, sin) is removed. *)
Theorem C101_exp_refuted : exists c pe p0 pin a0 b0 f1 f2 u ul x,
  arith_ok (l_ar c) /\ poly_ok (l_po c) pin /\ (forall z p, pin z p -> pe p = false) /\
  is_expo (l_A c) (l_expo c (l_A c)) /\ is_expo (mneg (l_A c)) (l_expo c (mneg (l_A c))) /\
  lin_sol (l_A c) (l_b c) a0 b0 f1 f2 u /\
  partition ul /\ all_gates_defined ul = true /\ is_gate (hd (TS Emp Emp) ul) = true /\
  (forall l h, List.In (Itv (Some l) (Some h)) (map ts_t ul) -> a0 <= l /\ h <= b0) /\
  map (k_t c) x = map ts_t ul /\ traj_in u ul /\ kin pin f1 f2 x /\
  forall fwd bwd y, fwd || bwd = true -> linobs2_contract c pe p0 fwd bwd true x ul = Some y -> ~ kin pin f1 f2 y.
Proof.
  pose proof PI_RGT_0 as HPI.
  exists c_rot, (fun p => is_empty (fst p) || is_empty (snd p)), (Emp, Emp), vin, 0, (2 * PI), cos, sin, (fun _ => 0), (uthree (2 * PI) (I2 0 0)),
    (three (c := c_rot) (2 * PI) (pt 1, pt 0) (I2 (-1) 1, I2 (-1) 1) (pt 1, pt 0)).
  destruct (uthree_ok (2 * PI) (I2 0 0) ltac:(lra)) as (U1 & U2 & U3).
  refine (conj exact_ok (conj bpolys_ok (conj _ (conj (proj1 A_rot_expo) (conj (proj2 A_rot_expo) (conj (rot_sol _ _) (conj U1 (conj U2 (conj U3 (conj _ (conj eq_refl (conj _ (conj _ _))))))))))))).
  - intros [z1 z2] [[|] [|]] [H1 H2]; cbn in *; try reflexivity; try destruct H1; destruct H2.
  - intros l h [E|[E|[E|[]]]]; injection E as <- <-; lra.
  - intros s t [<-|[<-|[<-|[]]]] _; cbn; lra.
  - intros s t [<-|[<-|[<-|[]]]] Ht; cbn [k_t k_x] in *.
    + apply In_pt in Ht. subst. rewrite cos_0, sin_0. split; apply In_pt; reflexivity.
    + pose proof (COS_bound t). pose proof (SIN_bound t). split; cbn; lra.
    + apply In_pt in Ht. subst. rewrite cos_2PI, sin_2PI. split; apply In_pt; reflexivity.
  - intros fwd bwd y Hf E K. destruct (three_env c_rot _ (Emp, Emp) fwd bwd (2 * PI) _ _ _ _ y ltac:(lra) Hf E) as (g & s & g' & -> & Es & X).
    assert (Kp : vin (cos PI, sin PI) (k_x c_rot s)) by (apply (K s PI); [right; left; auto|rewrite Es; cbn; lra]).
    destruct X as [X|(p' & X1 & X2)]; [rewrite X in Kp; destruct Kp as [[] _]|]. rewrite X2 in Kp.
    assert (Q : (fst p' = pt 1 \/ fst p' = Emp) /\ (snd p' = pt 0 \/ snd p' = Emp)).
    { apply (X1 (fun p : ivec => (fst p = pt 1 \/ fst p = Emp) /\ (snd p = pt 0 \/ snd p = Emp))); [|auto]. refine (conj _ (conj _ _)); [|auto|auto].
      intros p q [P1 P2]. cbn [c_rot l_po bpolys p_inter fst snd]. split; [destruct P1 as [->| ->]|destruct P2 as [->| ->]]; try (apply inter_pt); right; reflexivity. }
    destruct Q as [Q1 Q2]. assert (cos PI = 1).
    { apply (rot_envelope p' (cos PI) Q1 Q2). cbn [bpolys p_box fst]. apply In_inter. split; [exact (proj1 Kp)|apply In_ALL]. }
    rewrite cos_PI in H. lra.
Qed.

(** The envelope replaces the one of the slice instead of being intersected with it (line 138): it may grow.  For
    the chain of integrators x1' = x2, x2' = u, the slice gets points that it did not contain. *)
Theorem C101_contracts_refuted : exists c pe p0 pin f1 f2 u ul x s z y s',
  arith_ok (l_ar c) /\ poly_ok (l_po c) pin /\ (forall z p, pin z p -> pe p = false) /\
  is_expo (l_A c) (l_expo c (l_A c)) /\ is_expo (mneg (l_A c)) (l_expo c (mneg (l_A c))) /\
  between 1 (l_expo c (l_A c)) /\ between 1 (l_expo c (mneg (l_A c))) /\
  lin_sol (l_A c) (l_b c) 0 1 f1 f2 u /\
  partition ul /\ all_gates_defined ul = true /\ is_gate (hd (TS Emp Emp) ul) = true /\
  (forall l h, List.In (Itv (Some l) (Some h)) (map ts_t ul) -> 0 <= l /\ h <= 1 /\ h - l <= 1) /\
  map (k_t c) x = map ts_t ul /\ traj_in u ul /\ kin pin f1 f2 x /\
  nth_error x 1 = Some s /\ ~ pin z (k_x c s) /\
  linobs2_contract c pe p0 true true true x ul = Some y /\ nth_error y 1 = Some s' /\ pin z (k_x c s').
Proof.
  set (pe := fun p : ivec => is_empty (fst p) || is_empty (snd p)).
  set (x := three (c := c_chain) 1 (pt 0, pt 0) (I2 (-1) 1, I2 (-1) 1) (pt 0, pt 0)). set (ul := uthree 1 (I2 (-10) 10)).
  destruct (uthree_ok 1 (I2 (-10) 10) ltac:(lra)) as (U1 & U2 & U3).
  assert (Hpe : forall z p, vin z p -> pe p = false) by (intros [z1 z2] [[|] [|]] [H1 H2]; cbn in *; try reflexivity; try destruct H1; destruct H2).
  assert (B1 : between 1 (cexpo (l_A c_chain))) by (apply (chain_between 1); apply (cexpo_ok 1)).
  assert (B2 : between 1 (cexpo (mneg (l_A c_chain)))) by (cbn [l_A c_chain chain_ctc]; rewrite mneg_chain; apply (chain_between (-1)); apply (cexpo_ok (-1))).
  assert (HS : lin_sol (l_A c_chain) (l_b c_chain) 0 1 (fun _ => 0) (fun _ => 0) (fun _ => 0)).
  { split; (split; [intros t _; apply continuity_const; intros ? ?; reflexivity|]; intros t _; cbn;
      match goal with |- derivable_pt_lim _ _ ?l => replace l with 0 by ring end; apply derivable_pt_lim_const). }
  assert (HT : forall l h, List.In (Itv (Some l) (Some h)) (map ts_t ul) -> 0 <= l /\ h <= 1 /\ h - l <= 1) by (intros l h [E|[E|[E|[]]]]; injection E as <- <-; lra).
  assert (Hu : traj_in (fun _ => 0) ul) by (intros s t [<-|[<-|[<-|[]]]] _; cbn; lra).
  assert (K : kin (c := c_chain) vin (fun _ => 0) (fun _ => 0) x) by (intros s t [<-|[<-|[<-|[]]]] _; split; cbn; lra).
  destruct (C101_partial c_chain pe (Emp, Emp) vin 0 1 1 (fun _ => 0) (fun _ => 0) (fun _ => 0) ul x true true true exact_ok bpolys_ok Hpe (proj1 c_chain_expo) (proj2 c_chain_expo) B1 B2 HS U1 U2 U3 HT eq_refl Hu K)
    as (y & E & Ky & Ey).
  destruct (three_env c_chain pe (Emp, Emp) true true 1 _ _ _ _ y ltac:(lra) eq_refl E) as (g & s & g' & -> & Es & X).
  assert (Kp : vin (0, 0) (k_x c_chain s)) by (apply (Ky s 0); [right; left; auto|rewrite Es; cbn; lra]).
  destruct X as [X|(p' & X1 & X2)]; [rewrite X in Kp; destruct Kp as [[] _]|].
  assert (Q : vin (0, 0) p').
  { assert (Q : (fst p' = pt 0 \/ fst p' = Emp) /\ (snd p' = pt 0 \/ snd p' = Emp)).
    { apply (X1 (fun p : ivec => (fst p = pt 0 \/ fst p = Emp) /\ (snd p = pt 0 \/ snd p = Emp))); [|auto]. refine (conj _ (conj _ _)); [|auto|auto].
      intros p q [P1 P2]. cbn [c_chain chain_ctc l_po bpolys p_inter fst snd]. split; [destruct P1 as [->| ->]|destruct P2 as [->| ->]]; try (apply inter_pt); right; reflexivity. }
    rewrite X2 in Kp. destruct p' as [p1 p2]. cbn [fst snd] in Q. destruct Q as [[->| ->] [->| ->]]; [split; apply In_pt; reflexivity| | |];
      exfalso; unfold polygon_envelope in Kp; cbn [c_chain chain_ctc l_po bpolys p_add p_mul fst snd] in Kp; destruct Kp as [Kp1 Kp2]; unfold mat_vec in *; cbn [fst snd exact imul iadd] in *;
      revert Kp1; try (destruct (fst (fst _)) as [|? ?]); cbn; auto. }
  exists c_chain, pe, (Emp, Emp), vin, (fun _ => 0), (fun _ => 0), (fun _ => 0), ul, x, (Cell c_chain (Itv (Some 0) (Some 1)) (I2 (-1) 1, I2 (-1) 1)), (0, 5), [g; s; g'], s.
  refine (conj exact_ok (conj bpolys_ok (conj Hpe (conj (proj1 c_chain_expo) (conj (proj2 c_chain_expo) (conj B1 (conj B2 (conj HS (conj U1 (conj U2 (conj U3 (conj HT (conj eq_refl (conj Hu (conj K (conj eq_refl (conj _ (conj E (conj eq_refl _))))))))))))))))))).
  - intros [_ H]. cbn in H. lra.
  - rewrite X2. unfold polygon_envelope.
    pose proof (exp_at_in (l_expo c_chain) (l_A c_chain) 1 (1 - 0) 0 B1 ltac:(lra) ltac:(lra)) as M.
    pose proof (k_mul _ _ bpolys_ok _ _ _ _ M Q) as M1.
    pose proof (mat_vec_in exact _ _ _ _ exact_ok (scal_mat_in exact 1 (bnd 0 (1 - 0)) _ _ exact_ok ltac:(apply In_bnd; lra) M) (scal_vec_in exact 5 (I2 (-10) 10) (l_b c_chain) exact_ok ltac:(cbn; lra))) as M2.
    pose proof (k_add _ _ bpolys_ok _ _ _ _ M1 M2) as M3.
    match type of M3 with vin ?w _ => replace w with (0, 5) in M3; [exact M3|] end.
    cbn. f_equal; ring.
Qed.

(** all_gates_defined() may hold without any gate (C50): the assertions of lines 121 and 131 fail, although the tube
    contains a solution. *)
Theorem C101_gates_refuted : exists c pe p0 pin f1 f2 u ul x,
  arith_ok (l_ar c) /\ poly_ok (l_po c) pin /\ (forall z p, pin z p -> pe p = false) /\
  is_expo (l_A c) (l_expo c (l_A c)) /\ is_expo (mneg (l_A c)) (l_expo c (mneg (l_A c))) /\
  lin_sol (l_A c) (l_b c) 0 2 f1 f2 u /\
  partition ul /\ all_gates_defined ul = true /\ map (k_t c) x = map ts_t ul /\ traj_in u ul /\ kin pin f1 f2 x /\
  forall fwd bwd env, fwd || bwd = true -> linobs2_contract c pe p0 fwd bwd env x ul = None.
Proof.
  set (pe := fun p : ivec => is_empty (fst p) || is_empty (snd p)).
  set (ul := [TS (Itv (Some 0) (Some 1)) (I2 (-1) 1); TS (Itv (Some 1) (Some 2)) (I2 (-1) 1)]).
  set (x := [Cell c_chain (Itv (Some 0) (Some 1)) (I2 (-1) 1, I2 (-1) 1); Cell c_chain (Itv (Some 1) (Some 2)) (I2 (-1) 1, I2 (-1) 1)]).
  assert (D1 : is_degenerated (Itv (Some 0) (Some 1)) = false) by (cbn; apply Reqb_f; lra).
  assert (D2 : is_degenerated (Itv (Some 1) (Some 2)) = false) by (cbn; apply Reqb_f; lra).
  assert (II : inter (I2 (-1) 1) (I2 (-1) 1) = I2 (-1) 1) by (apply inter_sub_eq; [cbn; lra|intros z Hz; exact Hz]).
  assert (N : is_empty (I2 (-1) 1) = false) by reflexivity.
  exists c_chain, pe, (Emp, Emp), vin, (fun _ => 0), (fun _ => 0), (fun _ => 0), ul, x.
  assert (AG : all_gates_defined ul = true).
  { unfold all_gates_defined. change (t0_tf ul) with (Itv (Some 0) (Some 2)). cbn [is_degenerated]. rewrite (Reqb_f 0 2) by lra. cbn [ul length Nat.eqb tl alternate]. unfold is_gate. cbn [ts_t]. rewrite D2. reflexivity. }
  refine (conj exact_ok (conj bpolys_ok (conj _ (conj (proj1 c_chain_expo) (conj (proj2 c_chain_expo) (conj _ (conj _ (conj AG (conj eq_refl (conj _ (conj _ _))))))))))).
  - intros [z1 z2] [[|] [|]] [H1 H2]; cbn in *; try reflexivity; try destruct H1; destruct H2.
  - split; (split; [intros t _; apply continuity_const; intros ? ?; reflexivity|]; intros t _; cbn;
      match goal with |- derivable_pt_lim _ _ ?l => replace l with 0 by ring end; apply derivable_pt_lim_const).
  - refine (conj _ (conj _ _)); [discriminate| |].
    + intros s [<-|[<-|[]]]; exists 1; cbn; lra.
    + cbn [linked ul]. refine (conj (conj _ _) I); [exists 1; auto|]. unfold is_gate. cbn [ts_t]. intros [G _]. congruence.
  - intros s t [<-|[<-|[]]] _; cbn; lra.
  - intros s t [<-|[<-|[]]] _; split; cbn; lra.
  - intros fwd bwd env Hf. unfold linobs2_contract. rewrite AG. destruct fwd.
    + unfold ul, x. cbn [fwd_loop]. unfold k_gate at 1, k_unbounded at 1. cbn [k_t]. rewrite D1. cbn [orb]. unfold k_contract, k_is_empty, slice_is_empty, is_gate, k_gate, k_fwd, slice_gate, k_side, is_gate, k_gate.
      cbn [k_t ts_t k_x ts_x]. rewrite D1, D2. cbn [c_chain chain_ctc l_po bpolys p_inter fst snd]. rewrite II. unfold pe. cbn [fst snd]. rewrite N. cbn [orb]. reflexivity.
    + cbn in Hf. subst bwd. unfold ul, x. cbn [rev app bwd_loop]. unfold k_gate at 1, k_unbounded at 1. cbn [k_t]. rewrite D2. cbn [orb]. unfold k_contract, k_is_empty, slice_is_empty, is_gate, k_gate, k_bwd, slice_gate, k_side, is_gate, k_gate.
      cbn [k_t ts_t k_x ts_x]. rewrite D1, D2. cbn [c_chain chain_ctc l_po bpolys p_inter fst snd]. rewrite II. unfold pe. cbn [fst snd]. rewrite N. cbn [orb]. reflexivity.
Qed.

(** ** Concrete cases *)
(** the parabola t (1 - t) and its derivative are kept, for all the choices of propagation *)
Example C101_ex : forall fwd bwd env, let pe := fun p : ivec => is_empty (fst p) || is_empty (snd p) in
  exists y, linobs2_contract c_chain pe (Emp, Emp) fwd bwd env (three (c := c_chain) 1 (pt 0, pt 1) (I2 (-5) 5, I2 (-5) 5) (I2 (-5) 5, I2 (-5) 5)) (uthree 1 (I2 (-3) (-1))) = Some y /\
    kin (c := c_chain) vin fB gB y.
Proof.
  intros fwd bwd env pe. destruct (uthree_ok 1 (I2 (-3) (-1)) ltac:(lra)) as (U1 & U2 & U3). destruct fB_sol as [S1 S2].
  destruct (C101_partial c_chain pe (Emp, Emp) vin 0 1 1 fB gB (fun _ => -2) (uthree 1 (I2 (-3) (-1))) (three (c := c_chain) 1 (pt 0, pt 1) (I2 (-5) 5, I2 (-5) 5) (I2 (-5) 5, I2 (-5) 5)) fwd bwd env) as (y & E & K & _);
    try apply c_chain_expo; auto using exact_ok, bpolys_ok.
  - intros [z1 z2] [[|] [|]] [H1 H2]; cbn in *; try reflexivity; try destruct H1; destruct H2.
  - apply (chain_between 1); apply (cexpo_ok 1).
  - cbn [l_A c_chain chain_ctc]; rewrite mneg_chain; apply (chain_between (-1)); apply (cexpo_ok (-1)).
  - split.
    + apply (derivative_eq 0 1 fB gB); [|exact S1]. intros t. cbn. ring.
    + apply (derivative_eq 0 1 gB (fun _ => -2)); [|exact S2]. intros t. cbn. ring.
  - intros l h [E|[E|[E|[]]]]; injection E as <- <-; lra.
  - intros s t [<-|[<-|[<-|[]]]] _; cbn; lra.
  - intros s t [<-|[<-|[<-|[]]]] Ht; unfold fB, gB; cbn in Ht; split; cbn; nra.
  - exists y. auto.
Qed.
(** the hypotheses of C101_gates_shrink: boxes *)
Example C101_gates_ex : (forall z p q, vin z (p_inter bpolys p q) -> vin z p) /\ (forall z p, vin z (p_simplify bpolys p) -> vin z p) /\ (forall z, ~ vin z (Emp, Emp)).
Proof.
  refine (conj _ (conj _ _)); auto.
  - intros z p q [H1 H2]. apply In_inter in H1, H2. split; [apply H1|apply H2].
  - intros z [[] _].
Qed.

Print Assumptions C101_partial.
Print Assumptions C101_gates_shrink.
Print Assumptions C101_exp_refuted.
Print Assumptions C101_contracts_refuted.
Print Assumptions C101_gates_refuted.
