(** * C81: CtcLinobs and CtcChain keep the solutions of the linear system *)

From Coq Require Import Reals Lra Lia Bool List Arith.
Import ListNotations.
From Verif Require Import Itv Tube TubeSpec TubeFacts TubeOps TubeOpsFacts TubeCtc TubeQueries CtcDerivFacts Arith DynSpec Linobs LinobsFacts.
Open Scope R_scope.

Section SOUND.
  Variables (c : linobs) (pin : vec -> po (l_po c) -> Prop) (a b H : R) (xr ut : tube) (f1 f2 u : R -> R) (obs : list (R * ivec)).
  Hypothesis HA : arith_ok (l_ar c).
  Hypothesis HP : poly_ok (l_po c) pin.
  Hypothesis HE : is_expo (l_A c) (l_expo c (l_A c)).
  Hypothesis HEm : is_expo (mneg (l_A c)) (l_expo c (mneg (l_A c))).
  Hypothesis HB : between H (l_expo c (l_A c)).
  Hypothesis HBm : between H (l_expo c (mneg (l_A c))).
  Hypothesis Hxr : tube_ok a b xr.
  Hypothesis HW : forall s, List.In s xr -> s_ub s - s_lb s <= H.
  Hypothesis Hut : tube_ok a b ut.
  Hypothesis Hud : map dom ut = map dom xr.
  Hypothesis Hu : has ut u.
  Hypothesis HS : lin_sol (l_A c) (l_b c) a b f1 f2 u.
  Hypothesis HO : forall o, List.In o obs -> vin (f1 (fst o), f2 (fst o)) (snd o).

  (** the polygons enclose the solution at the bounds of the slices *)
  Definition pins (ps : list (po (l_po c))) : Prop := length ps = S (length xr) /\
    forall k s, nth_error xr k = Some s -> pin (f1 (s_lb s), f2 (s_lb s)) (p_nth c k ps) /\ pin (f1 (s_ub s), f2 (s_ub s)) (p_nth c (S k) ps).
  Definition linv (st : lstate c) : Prop :=
    tube_ok a b (l_x1 c st) /\ tube_ok a b (l_x2 c st) /\ map dom (l_x1 c st) = map dom xr /\ map dom (l_x2 c st) = map dom xr /\
    has (l_x1 c st) f1 /\ has (l_x2 c st) f2 /\ pins (l_p c st).

  Lemma u_in k s su t : nth_error xr k = Some s -> nth_error ut k = Some su -> s_lb s <= t <= s_ub s -> In (u t) (s_cod su).
  Proof.
    intros E Eu Ht. destruct (dom_nth xr ut k s su) as [D1 D2]; auto.
    apply (slice_has_closed su u); auto; [exact (ok_in _ _ _ _ Hut (nth_error_In _ _ Eu))|apply Hu; eapply nth_error_In; eauto|lra].
  Qed.
  Lemma fwd_gate_in k s su r p q : nth_error xr k = Some s -> nth_error ut k = Some su -> s_lb s <= r <= s_ub s ->
    pin (f1 (s_ub s), f2 (s_ub s)) p -> pin (f1 r, f2 r) q ->
    pin (f1 (s_ub s), f2 (s_ub s)) (fwd_gate c p q (s_ub s - r) (s_cod su)).
  Proof.
    intros E Eu Hr Hp Hq. unfold fwd_gate. apply (k_simplify _ _ HP). apply (k_inter _ _ HP); auto.
    destruct (chain_in_bounds _ _ _ _ (ok_chain _ _ _ Hxr) (nth_error_In _ _ E)) as (B1 & B2 & B3). pose proof (HW s (nth_error_In _ _ E)) as Hw.
    set (m := l_expo c (l_A c) (s_ub s - r)).
    pose proof (k_mul _ _ HP m _ _ _ (exp_at_pt (l_expo c) (l_A c) (s_ub s - r)) Hq) as K.
    pose proof (flow (l_ar c) (l_expo c) (l_A c) (l_b c) a b f1 f2 u (s_cod su) r (s_ub s) (exp_at (l_expo c) (l_A c) 0 (s_ub s - r)) (pt (s_ub s - r))) as F.
    specialize (F HA HE HS ltac:(lra) ltac:(lra) ltac:(lra)).
    specialize (F ltac:(intros; eapply u_in; eauto; lra) ltac:(intros; eapply exp_at_in; eauto; lra) ltac:(apply In_pt; reflexivity)).
    pose proof (k_add _ _ HP _ _ _ _ K F) as G. cbn [fst snd] in G. fold m in G.
    replace (fst (mv m (f1 r, f2 r)) + (f1 (s_ub s) - fst (mv m (f1 r, f2 r)))) with (f1 (s_ub s)) in G by ring.
    replace (snd (mv m (f1 r, f2 r)) + (f2 (s_ub s) - snd (mv m (f1 r, f2 r)))) with (f2 (s_ub s)) in G by ring. exact G.
  Qed.
  Lemma bwd_gate_in k s su t p q : nth_error xr k = Some s -> nth_error ut k = Some su -> s_lb s <= t <= s_ub s ->
    pin (f1 (s_lb s), f2 (s_lb s)) p -> pin (f1 t, f2 t) q ->
    pin (f1 (s_lb s), f2 (s_lb s)) (bwd_gate c p q (t - s_lb s) (s_cod su)).
  Proof.
    intros E Eu Hr Hp Hq. unfold bwd_gate. apply (k_simplify _ _ HP). apply (k_inter _ _ HP); auto.
    destruct (chain_in_bounds _ _ _ _ (ok_chain _ _ _ Hxr) (nth_error_In _ _ E)) as (B1 & B2 & B3). pose proof (HW s (nth_error_In _ _ E)) as Hw.
    set (m := l_expo c (mneg (l_A c)) (t - s_lb s)).
    pose proof (k_mul _ _ HP m _ _ _ (exp_at_pt (l_expo c) (mneg (l_A c)) (t - s_lb s)) Hq) as K.
    pose proof (flow_back (l_ar c) (l_expo c) (l_A c) (l_b c) a b f1 f2 u (s_cod su) (s_lb s) t (exp_at (l_expo c) (mneg (l_A c)) 0 (t - s_lb s)) (pt (t - s_lb s))) as F.
    specialize (F HA HEm HS ltac:(lra) ltac:(lra) ltac:(lra)).
    specialize (F ltac:(intros; eapply u_in; eauto; lra) ltac:(intros; eapply exp_at_in; eauto; lra) ltac:(apply In_pt; reflexivity)).
    pose proof (k_sub _ _ HP _ _ _ _ K F) as G. cbn [fst snd] in G. fold m in G.
    replace (fst (mv m (f1 t, f2 t)) - (fst (mv m (f1 t, f2 t)) - f1 (s_lb s))) with (f1 (s_lb s)) in G by ring.
    replace (snd (mv m (f1 t, f2 t)) - (snd (mv m (f1 t, f2 t)) - f2 (s_lb s))) with (f2 (s_lb s)) in G by ring. exact G.
  Qed.
  Lemma envelope_in k s su t p : nth_error xr k = Some s -> nth_error ut k = Some su -> s_lb s <= t <= s_ub s ->
    pin (f1 (s_lb s), f2 (s_lb s)) p -> pin (f1 t, f2 t) (polygon_envelope c p (s_ub s - s_lb s) (s_cod su)).
  Proof.
    intros E Eu Ht Hq. unfold polygon_envelope.
    destruct (chain_in_bounds _ _ _ _ (ok_chain _ _ _ Hxr) (nth_error_In _ _ E)) as (B1 & B2 & B3). pose proof (HW s (nth_error_In _ _ E)) as Hw.
    set (m := l_expo c (l_A c) (t - s_lb s)).
    assert (Hm : min_ m (exp_at (l_expo c) (l_A c) 0 (s_ub s - s_lb s))) by (eapply exp_at_in; eauto; lra).
    pose proof (k_mul _ _ HP m _ _ _ Hm Hq) as K.
    pose proof (flow (l_ar c) (l_expo c) (l_A c) (l_b c) a b f1 f2 u (s_cod su) (s_lb s) t (exp_at (l_expo c) (l_A c) 0 (s_ub s - s_lb s)) (bnd 0 (s_ub s - s_lb s))) as F.
    specialize (F HA HE HS ltac:(lra) ltac:(lra) ltac:(lra)).
    specialize (F ltac:(intros; eapply u_in; eauto; lra) ltac:(intros; eapply exp_at_in; eauto; lra) ltac:(apply In_bnd; lra)).
    pose proof (k_add _ _ HP _ _ _ _ K F) as G. cbn [fst snd] in G. fold m in G.
    replace (fst (mv m (f1 (s_lb s), f2 (s_lb s))) + (f1 t - fst (mv m (f1 (s_lb s), f2 (s_lb s))))) with (f1 t) in G by ring.
    replace (snd (mv m (f1 (s_lb s), f2 (s_lb s))) + (f2 t - snd (mv m (f1 (s_lb s), f2 (s_lb s))))) with (f2 t) in G by ring. exact G.
  Qed.
  Lemma p_nth_upd i j p ps : (i < length ps)%nat -> p_nth c j (upd i (fun _ => p) ps) = if Nat.eqb j i then p else p_nth c j ps.
  Proof.
    unfold p_nth. revert i j. induction ps as [|q ps IH]; intros i j L; [cbn in L; lia|]. destruct i as [|i], j as [|j]; cbn in *; auto. apply IH. lia.
  Qed.
  Lemma pins_upd i p ps : pins ps -> (i <= length xr)%nat ->
    (forall k s, nth_error xr k = Some s -> (k = i -> pin (f1 (s_lb s), f2 (s_lb s)) p) /\ (S k = i -> pin (f1 (s_ub s), f2 (s_ub s)) p)) ->
    pins (upd i (fun _ => p) ps).
  Proof.
    intros [L K] Hi Hp. split; [rewrite upd_length; auto|]. intros k s E. rewrite !p_nth_upd by lia. destruct (K k s E) as [K1 K2]. destruct (Hp k s E) as [P1 P2].
    split; [destruct (Nat.eqb k i) eqn:Q|destruct (Nat.eqb (S k) i) eqn:Q]; auto; apply Nat.eqb_eq in Q; auto.
  Qed.
  Lemma obs_fold (s : slice) (z : vec) (G : po (l_po c) -> po (l_po c) -> R -> po (l_po c)) d : forall l p, (forall o, List.In o l -> List.In o obs) -> pin z p ->
    (forall o p, List.In o obs -> s_contains s (fst o) = true -> pin z p -> pin z (G p (p_of_box _ (snd o)) (d (fst o)))) ->
    pin z (fold_left (fun p o => if s_contains s (fst o) then G p (p_of_box _ (snd o)) (d (fst o)) else p) l p).
  Proof.
    induction l as [|o l IH]; intros p Hl Hp HG; cbn [fold_left]; auto. apply IH; auto; [intros; apply Hl; right; auto|].
    destruct (s_contains s (fst o)) eqn:E; auto. apply HG; auto. apply Hl; left; auto.
  Qed.
  Lemma s_contains_spec s t : s_contains s t = true -> s_lb s <= t <= s_ub s.
  Proof. unfold s_contains. intros E. apply andb_true_iff in E. rewrite !Rleb_true in E. auto. Qed.
  Lemma dom_ref x k s : map dom x = map dom xr -> nth_error x k = Some s -> exists sr, nth_error xr k = Some sr /\ s_lb s = s_lb sr /\ s_ub s = s_ub sr.
  Proof.
    intros D E. destruct (nth_error xr k) as [sr|] eqn:Er.
    - exists sr. destruct (dom_nth x xr k s sr) as [D1 D2]; auto.
    - exfalso. assert (nth_error (map dom x) k = Some (dom s)) as Q by (rewrite nth_error_map, E; auto). rewrite D, nth_error_map, Er in Q. discriminate.
  Qed.
  Lemma len_ref x : map dom x = map dom xr -> length x = length xr.
  Proof. intros D. rewrite <- (map_length dom x), D, map_length. auto. Qed.

  Lemma fwd_step_inv bwd st k : linv st -> linv (fwd_step c bwd obs ut st k).
  Proof.
    intros HI. pose proof HI as (O1 & O2 & D1 & D2 & F1 & F2 & [PL PI]). unfold fwd_step. destruct (nth_error (l_x1 c st) k) as [s|] eqn:E; auto. destruct (nth_error ut k) as [su|] eqn:Eu; auto.
    destruct (intersects _ _); auto.
    destruct (dom_ref _ _ _ D1 E) as (sr & Er & L1 & U1).
    assert (exists s2, nth_error (l_x2 c st) k = Some s2) as (s2 & E2).
    { destruct (nth_error (l_x2 c st) k) eqn:Q; [eauto|]. apply nth_error_None in Q. rewrite (len_ref _ D2), <- (len_ref _ D1) in Q.
      assert (k < length (l_x1 c st))%nat by (apply nth_error_Some; congruence). lia. }
    destruct (dom_ref _ _ _ D2 E2) as (sr' & Er' & L2 & U2). rewrite Er in Er'. injection Er' as <-.
    destruct (PI k sr Er) as [P1 P2].
    cbv zeta. rewrite L1, U1.
    set (p1 := fold_left _ _ _).
    assert (Hp1 : pin (f1 (s_ub sr), f2 (s_ub sr)) p1).
    { unfold p1. apply (obs_fold s _ (fun p q d => fwd_gate c p q d (s_cod su)) (fun t => s_ub sr - t)); auto.
      - apply (fwd_gate_in k); auto. destruct (chain_in_bounds _ _ _ _ (ok_chain _ _ _ Hxr) (nth_error_In _ _ Er)) as (B1 & B2 & B3). lra.
      - intros o p Ho Hc Hp. apply s_contains_spec in Hc. apply (fwd_gate_in k); auto; [lra|]. apply (k_of_box _ _ HP). apply HO; auto. }
    destruct (k_box _ _ HP _ _ Hp1) as [V1 V2]. cbn [fst snd] in V1, V2. destruct (k_wf _ _ HP p1) as [W1 W2].
    assert (kl : (k < length xr)%nat) by (apply nth_error_Some; congruence).
    assert (Hps : pins (upd (S k) (fun _ => p1) (l_p c st))).
    { apply pins_upd; [split; auto|lia|]. intros j q Ej. split; intros Q.
      - subst j. rewrite <- (chain_from_nth xr a b k sr q (ok_chain _ _ _ Hxr) Er Ej). auto.
      - assert (j = k) by lia. subst j. rewrite Er in Ej. injection Ej as <-. auto. }
    set (x1 := set_output_gate k _ _ (l_x1 c st)). set (x2 := set_output_gate k _ _ (l_x2 c st)).
    assert (I1 : linv (mkL c x1 x2 (upd (S k) (fun _ => p1) (l_p c st)))).
    { unfold linv. cbn [l_x1 l_x2 l_p]. unfold x1, x2. rewrite !set_output_gate_dom.
      refine (conj _ (conj _ (conj D1 (conj D2 (conj _ (conj _ Hps)))))); try (apply set_output_gate_ok; auto).
      - eapply set_output_gate_has; eauto. rewrite U1. auto.
      - eapply set_output_gate_has; eauto. rewrite U2. auto. }
    destruct bwd; auto.
    destruct I1 as (O1' & O2' & D1' & D2' & F1' & F2' & Ps). cbn [l_x1 l_x2 l_p] in *.
    set (e := polygon_envelope _ _ _ _).
    assert (He : forall t, s_lb sr <= t <= s_ub sr -> pin (f1 t, f2 t) e).
    { intros t Ht. unfold e. apply (envelope_in k); auto. apply (proj2 Ps k sr Er). }
    destruct (k_wf _ _ HP e) as [We1 We2].
    assert (exists q1, nth_error x1 k = Some q1) as (q1 & Q1) by (destruct (nth_error x1 k) eqn:Q; [eauto|apply nth_error_None in Q; rewrite (len_ref _ D1') in Q; lia]).
    assert (exists q2, nth_error x2 k = Some q2) as (q2 & Q2) by (destruct (nth_error x2 k) eqn:Q; [eauto|apply nth_error_None in Q; rewrite (len_ref _ D2') in Q; lia]).
    destruct (dom_ref _ _ _ D1' Q1) as (r1 & R1 & A1 & A2). rewrite Er in R1. injection R1 as <-.
    destruct (dom_ref _ _ _ D2' Q2) as (r2 & R2 & A3 & A4). rewrite Er in R2. injection R2 as <-.
    unfold linv. cbn [l_x1 l_x2 l_p]. rewrite !set_envelope_dom.
    refine (conj _ (conj _ (conj D1' (conj D2' (conj _ (conj _ Ps)))))); try (apply set_envelope_ok; auto).
    - eapply set_envelope_has; eauto. intros t Ht. apply (k_box _ _ HP _ _ (He t ltac:(lra))).
    - eapply set_envelope_has; eauto. intros t Ht. apply (k_box _ _ HP _ _ (He t ltac:(lra))).
  Qed.
  Lemma bwd_step_inv st k : linv st -> linv (bwd_step c obs ut st k).
  Proof.
    intros HI. pose proof HI as (O1 & O2 & D1 & D2 & F1 & F2 & [PL PI]). unfold bwd_step. destruct (nth_error (l_x1 c st) k) as [s|] eqn:E; auto. destruct (nth_error ut k) as [su|] eqn:Eu; auto.
    destruct (intersects _ _); auto.
    destruct (dom_ref _ _ _ D1 E) as (sr & Er & L1 & U1).
    assert (exists s2, nth_error (l_x2 c st) k = Some s2) as (s2 & E2).
    { destruct (nth_error (l_x2 c st) k) eqn:Q; [eauto|]. apply nth_error_None in Q. rewrite (len_ref _ D2), <- (len_ref _ D1) in Q.
      assert (k < length (l_x1 c st))%nat by (apply nth_error_Some; congruence). lia. }
    destruct (dom_ref _ _ _ D2 E2) as (sr' & Er' & L2 & U2). rewrite Er in Er'. injection Er' as <-.
    destruct (PI k sr Er) as [P1 P2].
    cbv zeta. rewrite L1, U1.
    set (p1 := fold_left _ _ _).
    assert (Hp1 : pin (f1 (s_lb sr), f2 (s_lb sr)) p1).
    { unfold p1. apply (obs_fold s _ (fun p q d => bwd_gate c p q d (s_cod su)) (fun t => t - s_lb sr)); auto.
      - apply (bwd_gate_in k); auto. destruct (chain_in_bounds _ _ _ _ (ok_chain _ _ _ Hxr) (nth_error_In _ _ Er)) as (B1 & B2 & B3). lra.
      - intros o p Ho Hc Hp. apply s_contains_spec in Hc. apply (bwd_gate_in k); auto; [lra|]. apply (k_of_box _ _ HP). apply HO; auto. }
    destruct (k_box _ _ HP _ _ Hp1) as [V1 V2]. cbn [fst snd] in V1, V2. destruct (k_wf _ _ HP p1) as [W1 W2].
    assert (kl : (k < length xr)%nat) by (apply nth_error_Some; congruence).
    assert (Hps : pins (upd k (fun _ => p1) (l_p c st))).
    { apply pins_upd; [split; auto|lia|]. intros j q Ej. split; intros Q.
      - subst j. rewrite Er in Ej. injection Ej as <-. auto.
      - subst k. rewrite (chain_from_nth xr a b j q sr (ok_chain _ _ _ Hxr) Ej Er). auto. }
    set (x1 := set_input_gate k _ _ (l_x1 c st)). set (x2 := set_input_gate k _ _ (l_x2 c st)).
    assert (I1 : linv (mkL c x1 x2 (upd k (fun _ => p1) (l_p c st)))).
    { unfold linv. cbn [l_x1 l_x2 l_p]. unfold x1, x2. rewrite !set_input_gate_dom.
      refine (conj _ (conj _ (conj D1 (conj D2 (conj _ (conj _ Hps)))))); try (apply set_input_gate_ok; auto).
      - eapply set_input_gate_has; eauto. rewrite L1. auto.
      - eapply set_input_gate_has; eauto. rewrite L2. auto. }
    destruct I1 as (O1' & O2' & D1' & D2' & F1' & F2' & Ps). cbn [l_x1 l_x2 l_p] in *.
    set (e := polygon_envelope _ _ _ _).
    assert (He : forall t, s_lb sr <= t <= s_ub sr -> pin (f1 t, f2 t) e).
    { intros t Ht. unfold e. apply (envelope_in k); auto. }
    destruct (k_wf _ _ HP e) as [We1 We2].
    assert (exists q1, nth_error x1 k = Some q1) as (q1 & Q1) by (destruct (nth_error x1 k) eqn:Q; [eauto|apply nth_error_None in Q; rewrite (len_ref _ D1') in Q; lia]).
    assert (exists q2, nth_error x2 k = Some q2) as (q2 & Q2) by (destruct (nth_error x2 k) eqn:Q; [eauto|apply nth_error_None in Q; rewrite (len_ref _ D2') in Q; lia]).
    destruct (dom_ref _ _ _ D1' Q1) as (r1 & R1 & A1 & A2). rewrite Er in R1. injection R1 as <-.
    destruct (dom_ref _ _ _ D2' Q2) as (r2 & R2 & A3 & A4). rewrite Er in R2. injection R2 as <-.
    unfold linv. cbn [l_x1 l_x2 l_p]. rewrite !set_envelope_dom.
    refine (conj _ (conj _ (conj D1' (conj D2' (conj _ (conj _ Ps)))))); try (apply set_envelope_ok; auto).
    - eapply set_envelope_has; eauto. intros t Ht. apply (k_box _ _ HP _ _ (He t ltac:(lra))).
    - eapply set_envelope_has; eauto. intros t Ht. apply (k_box _ _ HP _ _ (He t ltac:(lra))).
  Qed.
  Lemma init_pins x1 x2 : tube_ok a b x1 -> tube_ok a b x2 -> map dom x1 = map dom xr -> map dom x2 = map dom xr -> has x1 f1 -> has x2 f2 ->
    pins (init_polys c x1 x2).
  Proof.
    intros O1 O2 D1 D2 F1 F2. pose proof (len_ref _ D1) as L1. pose proof (len_ref _ D2) as L2.
    destruct x1 as [|s1 r1] eqn:X1; [destruct (ok_ne _ _ _ O1); auto|]. destruct x2 as [|s2 r2] eqn:X2; [destruct (ok_ne _ _ _ O2); auto|].
    rewrite <- X1, <- X2 in *.
    assert (Hout : forall k s, nth_error xr k = Some s -> pin (f1 (s_ub s), f2 (s_ub s)) (p_nth c (S k) (init_polys c x1 x2))).
    { intros k s E. destruct (nth_error x1 k) as [q1|] eqn:Q1; [|apply nth_error_None in Q1; assert (k < length xr)%nat by (apply nth_error_Some; congruence); lia].
      destruct (nth_error x2 k) as [q2|] eqn:Q2; [|apply nth_error_None in Q2; assert (k < length xr)%nat by (apply nth_error_Some; congruence); lia].
      assert (nth_error (init_polys c x1 x2) (S k) = Some (p_of_box _ (s_out q1, s_out q2))) as N.
      { rewrite X1, X2 at 1. cbn [init_polys nth_error]. rewrite <- X1, <- X2, nth_error_map.
        assert (nth_error (combine x1 x2) k = Some (q1, q2)) as ->; auto. clear -Q1 Q2. revert x2 k Q1 Q2.
        induction x1 as [|y1 x1 IH]; intros [|y2 x2] [|k] Q1 Q2; try discriminate; cbn in *; [congruence|auto]. }
      unfold p_nth. rewrite (nth_error_nth _ _ _ N). apply (k_of_box _ _ HP).
      destruct (dom_nth x1 xr k q1 s) as [A1 A2]; auto. destruct (dom_nth x2 xr k q2 s) as [A3 A4]; auto.
      split; cbn [fst snd].
      - rewrite <- A2. apply (F1 q1 (nth_error_In _ _ Q1)).
      - rewrite <- A4. apply (F2 q2 (nth_error_In _ _ Q2)). }
    split.
    - rewrite X1, X2. cbn [init_polys length]. rewrite map_length, combine_length, <- X1, <- X2. lia.
    - intros k s E. split; auto. destruct k as [|k].
      + rewrite X1, X2. cbn. apply (k_of_box _ _ HP). destruct (dom_nth x1 xr 0 s1 s) as [A1 A2]; auto; [rewrite X1; auto|]. destruct (dom_nth x2 xr 0 s2 s) as [A3 A4]; auto; [rewrite X2; auto|].
        split; cbn [fst snd]; [rewrite <- A1; apply (F1 s1); rewrite X1; left; auto|rewrite <- A3; apply (F2 s2); rewrite X2; left; auto].
      + destruct (nth_error xr k) as [q|] eqn:Q; [|apply nth_error_None in Q; assert (S k < length xr)%nat by (apply nth_error_Some; congruence); lia].
        rewrite <- (chain_from_nth xr a b k q s (ok_chain _ _ _ Hxr) Q E). auto.
  Qed.
  Lemma fold_inv (f : lstate c -> nat -> lstate c) : (forall st k, linv st -> linv (f st k)) -> forall l st, linv st -> linv (fold_left f l st).
  Proof. intros Hf. induction l; cbn; auto. Qed.
End SOUND.

(** ** No solution is lost *)
Lemma mono1_inter i : mono1 (fun v => inter v i).
Proof. split; [intros; apply wf_inter|]. intros X X' _ _ H v. rewrite !In_inter. intros [H1 H2]. auto. Qed.
Lemma assign_ok a b x i : tube_ok a b x -> tube_ok a b (tube_assign_itv inter x i).
Proof. apply tube_unary_ok, mono1_inter. Qed.
Lemma assign_dom x i : map dom (tube_assign_itv inter x i) = map dom x.
Proof. unfold tube_assign_itv, tube_unary. apply map_loop_dom. Qed.
Lemma assign_has a b x i f : tube_ok a b x -> has x f -> (forall t, a <= t <= b -> In (f t) i) -> has (tube_assign_itv inter x i) f.
Proof.
  intros H Hf Hi. apply (tube_unary_has a b _ x f f (fun u v => u = v /\ In v i)); auto.
  intros v w X Hv [-> Hw]. apply In_inter. split; auto.
Qed.
(** A solution of x' = A x + b u that stays within [-9999, 9999] and meets the observations is kept, by all the
    combinations of the propagations, provided that the exponential stays between its values at the bounds over the
    duration of a slice.  The polygons at the gates enclose it too. *)
Theorem C81_no_loss : forall c pin a b H x1 x2 ut f1 f2 u obs fwd bwd,
  arith_ok (l_ar c) -> poly_ok (l_po c) pin -> is_expo (l_A c) (l_expo c (l_A c)) -> is_expo (mneg (l_A c)) (l_expo c (mneg (l_A c))) ->
  between H (l_expo c (l_A c)) -> between H (l_expo c (mneg (l_A c))) ->
  tube_ok a b x1 -> tube_ok a b x2 -> tube_ok a b ut -> map dom x2 = map dom x1 -> map dom ut = map dom x1 ->
  (forall s, List.In s x1 -> s_ub s - s_lb s <= H) ->
  has x1 f1 -> has x2 f2 -> has ut u -> lin_sol (l_A c) (l_b c) a b f1 f2 u ->
  (forall t, a <= t <= b -> -9999 <= f1 t <= 9999 /\ -9999 <= f2 t <= 9999) ->
  (forall o, List.In o obs -> vin (f1 (fst o), f2 (fst o)) (snd o)) ->
  let st := linobs_contract c fwd bwd obs x1 x2 ut in
  has (l_x1 c st) f1 /\ has (l_x2 c st) f2 /\ tube_ok a b (l_x1 c st) /\ tube_ok a b (l_x2 c st) /\
  map dom (l_x1 c st) = map dom x1 /\ map dom (l_x2 c st) = map dom x1 /\
  forall k s, nth_error x1 k = Some s -> pin (f1 (s_lb s), f2 (s_lb s)) (p_nth c k (l_p c st)) /\ pin (f1 (s_ub s), f2 (s_ub s)) (p_nth c (S k) (l_p c st)).
Proof.
  intros c pin a b H x1 x2 ut f1 f2 u obs fwd bwd HA HP HE HEm HB HBm O1 O2 Ou D2 Du HW F1 F2 Fu HS Hbd HO. cbv zeta. unfold linobs_contract.
  set (y1 := tube_assign_itv inter x1 box_domain). set (y2 := tube_assign_itv inter x2 box_domain).
  assert (I : linv c pin a b x1 f1 f2 (mkL c y1 y2 (init_polys c y1 y2))).
  { assert (tube_ok a b y1) by (apply assign_ok; auto). assert (tube_ok a b y2) by (apply assign_ok; auto).
    assert (has y1 f1) by (apply (assign_has a b); auto; intros t Ht; apply In_bnd; apply Hbd; auto).
    assert (has y2 f2) by (apply (assign_has a b); auto; intros t Ht; apply In_bnd; apply Hbd; auto).
    assert (map dom y1 = map dom x1) by (apply assign_dom). assert (map dom y2 = map dom x1) by (unfold y2; rewrite assign_dom; auto).
    unfold linv. cbn [l_x1 l_x2 l_p]. refine (conj _ (conj _ (conj _ (conj _ (conj _ (conj _ _)))))); auto.
    eapply init_pins; eauto. }
  assert (J : forall st, linv c pin a b x1 f1 f2 st -> linv c pin a b x1 f1 f2 (if fwd then fold_left (fwd_step c bwd obs ut) (seq 0 (length y1)) st else st)).
  { intros st Hst. destruct fwd; auto. apply fold_inv; auto. intros st' k Hst'. eapply fwd_step_inv; eauto. }
  specialize (J _ I). set (st := if fwd then _ else _) in *.
  assert (K : linv c pin a b x1 f1 f2 (if bwd then fold_left (bwd_step c obs ut) (rev (seq 0 (length y1))) st else st)).
  { destruct bwd; auto. apply fold_inv; auto. intros st' k Hst'. eapply bwd_step_inv; eauto. }
  destruct K as (K1 & K2 & K3 & K4 & K5 & K6 & [_ K7]). auto 8.
Qed.

(** ** CtcChain: x' = v, v' = a *)
Lemma slope_const (f : R -> R) d : (forall s, derivable_pt_lim f s d) -> forall s, f s = f 0 + d * s.
Proof.
  intros Hd s. assert (Hf : forall p q, p < q -> f q = f p + d * (q - p)).
  { intros p q Hpq. assert (D : derivative_on p q f (fun _ => d)) by (split; [intros t _; apply derivable_continuous_pt; exists d; apply Hd|intros; apply Hd]).
    assert (R1 : rises f (pt d) p q) by (eapply rises_of_derivative; [exact D|lra|lra|intros; apply In_pt; reflexivity]).
    destruct (rises_step f (pt d) p q p q) as (v & Hv & E); auto; try lra. apply In_pt in Hv. subst v. lra. }
  destruct (Rtotal_order s 0) as [L|[->|L]]; [|lra|].
  - pose proof (Hf s 0 L). lra.
  - pose proof (Hf 0 s L). lra.
Qed.
Lemma derive_ext (f g : R -> R) s d : (forall t, f t = g t) -> derivable_pt_lim f s d -> derivable_pt_lim g s d.
Proof. intros Hfg H eps He. destruct (H eps He) as (del & Hd). exists del. intros h H1 H2. rewrite <- !Hfg. auto. Qed.
(** the exponential of the matrix of a chain is known *)
Lemma expo_chain (d : R) E : is_expo ((0, d), (0, 0)) E -> forall s, E s = ((1, d * s), (0, 1)).
Proof.
  intros [E0 DE] s.
  assert (H11 : forall s, fst (fst (E s)) = 1).
  { intros t. rewrite (slope_const (fun s => fst (fst (E s))) 0); [rewrite E0; cbn; ring|].
    intros r. destruct (DE r) as (D & _). cbn in D. match type of D with derivable_pt_lim _ _ ?l => replace 0 with l by ring end. exact D. }
  assert (H21 : forall s, fst (snd (E s)) = 0).
  { intros t. rewrite (slope_const (fun s => fst (snd (E s))) 0); [rewrite E0; cbn; ring|].
    intros r. destruct (DE r) as (_ & _ & D & _). cbn in D. match type of D with derivable_pt_lim _ _ ?l => replace 0 with l by ring end. exact D. }
  assert (H12 : forall s, snd (fst (E s)) = d * s).
  { intros t. rewrite (slope_const (fun s => snd (fst (E s))) d); [rewrite E0; cbn; ring|].
    intros r. destruct (DE r) as (_ & D & _). cbn in D. rewrite H11 in D. match type of D with derivable_pt_lim _ _ ?l => replace d with l by ring end. exact D. }
  assert (H22 : forall s, snd (snd (E s)) = 1).
  { intros t. rewrite (slope_const (fun s => snd (snd (E s))) 0); [rewrite E0; cbn; ring|].
    intros r. destruct (DE r) as (_ & _ & _ & D). cbn in D. rewrite H21 in D. match type of D with derivable_pt_lim _ _ ?l => replace 0 with l by ring end. exact D. }
  specialize (H11 s). specialize (H12 s). specialize (H21 s). specialize (H22 s). destruct (E s) as [[e1 e2] [e3 e4]]. cbn in *. subst. reflexivity.
Qed.
Lemma In_hull_between u v w : u <= w <= v \/ v <= w <= u -> In w (hull (pt u) (pt v)).
Proof.
  intros [H|H].
  - apply (In_convex u w v); [apply In_hull_l, In_pt|apply In_hull_r, In_pt|]; auto.
  - apply (In_convex v w u); [apply In_hull_r, In_pt|apply In_hull_l, In_pt|]; auto.
Qed.
Lemma chain_between d E H : is_expo ((0, d), (0, 0)) E -> between H E.
Proof.
  intros HE h s Hs _. rewrite !(expo_chain d E HE). split; split; cbn [map2_mat map_mat fst snd]; apply In_hull_between; try lra.
  destruct (Rle_dec 0 d) as [L|L].
  - left. split; apply Rmult_le_compat_l; lra.
  - right. split; [assert (- d * s <= - d * h) by (apply Rmult_le_compat_l; lra)|assert (- d * 0 <= - d * s) by (apply Rmult_le_compat_l; lra)]; lra.
Qed.
Lemma mneg_chain : mneg ((0, 1), (0, 0)) = ((0, -1), (0, 0)).
Proof. unfold mneg, map_mat. cbn. rewrite Ropp_0. reflexivity. Qed.
Lemma derivative_eq a b f g h : (forall t, g t = h t) -> derivative_on a b f g -> derivative_on a b f h.
Proof. intros E [C D]. split; auto. intros t Ht. rewrite <- E. auto. Qed.
(** With CtcChain there is no condition on the durations. *)
Theorem C81_chain : forall Ar expo Po pin restricted a b x v acc f g h fwd bwd, let c := chain_ctc Ar expo Po restricted in
  arith_ok Ar -> poly_ok Po pin -> is_expo (l_A c) (expo (l_A c)) -> is_expo (mneg (l_A c)) (expo (mneg (l_A c))) ->
  tube_ok a b x -> tube_ok a b v -> tube_ok a b acc -> map dom v = map dom x -> map dom acc = map dom x ->
  has x f -> has v g -> has acc h -> derivative_on a b f g -> derivative_on a b g h ->
  (forall t, a <= t <= b -> -9999 <= f t <= 9999 /\ -9999 <= g t <= 9999) ->
  has (fst (chain_contract c fwd bwd x v acc)) f /\ has (snd (chain_contract c fwd bwd x v acc)) g.
Proof.
  intros Ar expo Po pin restricted a b x v acc f g h fwd bwd c HA HP HE HEm Ox Ov Oa Dv Da Fx Fv Fa D1 D2 Hb.
  destruct (C81_no_loss c pin a b (b - a) x v acc f g h [] fwd bwd) as (K1 & K2 & _); auto.
  - apply (chain_between 1). exact HE.
  - apply (chain_between (-1)). cbn [l_A c chain_ctc l_expo] in *. rewrite mneg_chain in HEm |- *. exact HEm.
  - intros s Hs. destruct (chain_in_bounds _ _ _ _ (ok_chain _ _ _ Ox) Hs). lra.
  - split; cbn; [apply (derivative_eq a b f g); auto|apply (derivative_eq a b g h); auto]; intros; ring.
  - intros o [].
Qed.
