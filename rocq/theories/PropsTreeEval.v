(** * C58: the bounds given by eval(t) with the synthesis tree *)
From Coq Require Import Reals Lra Bool List Arith Lia.
Import ListNotations.
From Verif Require Import Itv Arith Tube TubeSpec TubeFacts TubeOps TubeOpsFacts TubeOpsFacts2 TubeQueries TubeQueries2 Concrete DynSpec
  Integral PropsIntegral Tree PropsTree PropsTreeInt.
Open Scope R_scope.
Set Bullet Behavior "Strict Subproofs".
Local Arguments Nat.div2 : simpl never.
Local Arguments Nat.ltb : simpl never.

(** each bound of each value x(t), t in [u,v], is in [p] *)
Definition bcovers (x : tube) (p : ipair) (u v : R) : Prop := forall t, u <= t <= v ->
  (forall r, lbound (eval_t x t) = Some r -> In r (fst p)) /\ (forall r, ubound (eval_t x t) = Some r -> In r (snd p)).
Lemma bcovers_hull x p q u m v : bcovers x p u m -> bcovers x q m v -> bcovers x (pair_hull p q) u v.
Proof.
  intros H1 H2 t Ht. destruct (Rle_dec t m) as [L|L].
  - destruct (H1 t) as (A & B); [lra|]. split; intros r Hr; apply In_hull_l; auto.
  - destruct (H2 t) as (A & B); [lra|]. split; intros r Hr; apply In_hull_r; auto.
Qed.
Lemma bcovers_sub x p u v u' v' : u <= u' -> v' <= v -> bcovers x p u v -> bcovers x p u' v'.
Proof. intros H1 H2 H t Ht. apply H. lra. Qed.

(** a predicate kept by the updates is kept by the queries *)
Section Stable.
  Variables (x : tube) (P : tree -> Prop).
  Hypothesis HP : forall root p, P root -> P (refresh x root p).
  Lemma top_stable : forall sh p root t, P root -> P (snd (top x sh p root t)).
  Proof.
    induction sh as [k' m|n m t1 IH1 t2 IH2]; intros p root t Hg; cbn [top];
      destruct (is_empty t); auto; destruct (_ || _); auto; destruct (is_degenerated t); auto; cbn [snd]; auto.
    destruct (itv_eqb _ _); [cbn [snd]; auto|]. destruct (_ && _); auto. destruct (_ && _); auto.
    pose proof (IH1 (p ++ [true]) root (inter (dom t1) t) Hg) as A. destruct (top x t1 _ _ _) as (v1 & root1). cbn [fst snd] in *.
    pose proof (IH2 (p ++ [false]) root1 (inter (dom t2) t) A) as B. destruct (top x t2 _ _ _) as (v2 & root2). auto.
  Qed.
  Lemma tinvert_stable : forall sh p root y t, P root -> P (snd (tinvert x sh p root y t)).
  Proof.
    induction sh as [k' m|n m t1 IH1 t2 IH2]; intros p root y t Hg; cbn [tinvert];
      destruct (is_empty t); auto; destruct (_ || _); auto; destruct (negb _); cbn [snd]; auto; destruct (inside_bounds _ _); cbn [snd]; auto.
    pose proof (IH1 (p ++ [true]) (refresh x root p) y (inter t (dom t1)) (HP _ _ Hg)) as A. destruct (tinvert x t1 _ _ _ _) as (v1 & root1). cbn [fst snd] in *.
    pose proof (IH2 (p ++ [false]) root1 y (inter t (dom t2)) A) as B. destruct (tinvert x t2 _ _ _ _) as (v2 & root2). auto.
  Qed.
  Lemma teval_stable : forall sh p root t, P root -> P (snd (teval x sh p root t)).
  Proof.
    induction sh as [k' m|n m t1 IH1 t2 IH2]; intros p root t Hg; cbn [teval];
      destruct (is_degenerated t); auto; destruct (itv_eqb _ _); cbn [snd]; auto.
    destruct (_ && _); auto. destruct (_ && _); auto.
    pose proof (IH1 (p ++ [true]) root (inter (dom t1) t) Hg) as A. destruct (teval x t1 _ _ _) as (v1 & root1). cbn [fst snd] in *.
    pose proof (IH2 (p ++ [false]) root1 (inter (dom t2) t) A) as B. destruct (teval x t2 _ _ _) as (v2 & root2). auto.
  Qed.
End Stable.

(** ** Invariant: a cleared flag means exact bounds *)
Fixpoint binv (x : tube) (t : tree) : Prop :=
  match t with
  | Leaf k m => m_vals m = false -> m_cb m = leaf_bounds (slice_k x k)
  | Node n m t1 t2 => binv x t1 /\ binv x t2 /\ (m_vals m = false -> m_cb m = pair_hull (m_cb (mem t1)) (m_cb (mem t2)))
  end.
Lemma binv_allv x : forall t, allv t -> binv x t.
Proof. induction t as [k m|n m t1 IH1 t2 IH2]; cbn; [congruence|]. intros (H0 & H1 & H2). repeat split; auto. congruence. Qed.
Lemma binv_update x : forall t, binv x t -> binv x (update_values x t).
Proof.
  induction t as [k m|n m t1 IH1 t2 IH2]; intros H; cbn.
  - destruct (m_vals m) eqn:E; auto. destruct (nth_error x k) as [s|] eqn:Es; auto. cbn. intros _.
    unfold slice_k. rewrite (nth_error_nth _ _ _ Es). auto.
  - destruct (m_vals m) eqn:E; auto. cbn in H. destruct H as (A & B & C). cbn. auto.
Qed.
Lemma binv_refresh x root p : binv x root -> binv x (refresh x root p).
Proof. intros H. unfold refresh. destruct (m_vals _); auto. apply binv_update; auto. Qed.
Lemma wl_cb ps t : m_vals (mem (write_leaves ps t)) = m_vals (mem t) /\ m_cb (mem (write_leaves ps t)) = m_cb (mem t).
Proof. destruct t; auto. Qed.
Lemma binv_wl x ps : forall t, binv x t -> binv x (write_leaves ps t).
Proof.
  induction t as [k m|n m t1 IH1 t2 IH2]; cbn; auto. intros (V1 & V2 & V3).
  destruct (wl_cb ps t1) as (_ & ->). destruct (wl_cb ps t2) as (_ & ->). auto.
Qed.
Lemma synth_cb t : m_cb (mem (synth_ints t)) = m_cb (mem t).
Proof. destruct t as [|n m t1 t2]; cbn; auto. destruct (m_vals m) eqn:E; cbn; auto. Qed.
Lemma binv_synth x : forall t, binv x t -> binv x (synth_ints t).
Proof.
  induction t as [k m|n m t1 IH1 t2 IH2]; cbn; auto. intros (V1 & V2 & V3). destruct (m_vals m) eqn:Em; cbn; [|rewrite Em; auto].
  rewrite !synth_cb. rewrite Em. auto.
Qed.
Lemma binv_ints x t : binv x t -> binv x (update_ints x t).
Proof. intros H. unfold update_ints. destruct (m_vals (mem t)); auto. apply binv_synth, binv_wl; auto. Qed.
Lemma binv_sub x : forall p t, binv x t -> binv x (sub p t).
Proof. induction p as [|b p IH]; intros [k m|n m t1 t2] H; cbn; auto. apply IH. destruct H as (H1 & H2 & _). destruct b; auto. Qed.

Section Eval.
  Variables (x : tube) (a b : R).
  Hypothesis Ok : tube_ok a b x.
  Let Hc : chain_from a x b := ok_chain _ _ _ Ok.

  Lemma leaf_covers k s : nth_error x k = Some s -> bcovers x (leaf_bounds s) (s_lb s) (s_ub s).
  Proof.
    intros Hk t Ht. destruct (chain_in_bounds _ _ _ _ Hc (nth_error_In _ _ Hk)) as (_ & Hlt & _).
    rewrite (eval_t_slice a b x k s t Ok Hk Ht).
    assert (Hs : slice_eval s t = s_cod s \/ slice_eval s t = s_in s \/ slice_eval s t = s_out s).
    { destruct (Req_dec t (s_lb s)) as [->|N1]; [right; left; apply slice_eval_lb; lra|].
      destruct (Req_dec t (s_ub s)) as [->|N2]; [right; right; apply slice_eval_ub; lra|]. left. apply slice_eval_mid. lra. }
    unfold leaf_bounds, add_bounds. cbn [fst snd].
    split; intros r Hr; destruct Hs as [E|[E|E]]; rewrite E in Hr; auto using add_bound_in, add_bound_mono.
  Qed.
  Lemma binv_covers : forall t k d c e, shape (skel t) k d -> dchain c d e -> placed x k d -> vinv x t -> binv x t ->
    m_vals (mem t) = false -> bcovers x (m_cb (mem t)) c e.
  Proof.
    induction t as [k' m|n m t1 IH1 t2 IH2]; intros k d c e Hs Hd Hp Hv Hb Hf; cbn [skel] in Hs; sinv Hs; cbn [mem] in *.
    - cbn [binv] in Hb. rewrite (Hb Hf). destruct (Hp 0%nat _ eq_refl) as (s & Hk & El). rewrite Nat.add_0_r in Hk.
      unfold slice_k. rewrite (nth_error_nth _ _ _ Hk). cbn in Hd. destruct Hd as (E1 & E2 & E3). injection El as E4 E5. rewrite <- E1, <- E3, <- E4, <- E5.
      apply (leaf_covers _ _ Hk).
    - cbn [vinv binv] in Hv, Hb. destruct Hv as (V1 & V2 & V3). destruct Hb as (B1 & B2 & B3). destruct (V3 Hf) as (F1 & F2 & _). rewrite (B3 Hf).
      apply dchain_app in Hd. destruct Hd as (m' & D1 & D2). destruct (placed_app _ _ _ _ Hp) as (P1 & P2).
      eapply bcovers_hull; eauto.
  Qed.
  Lemma node_cb_ok root p sh k d c e : good x root -> binv x root -> ssub p (skel root) = skel sh -> shape (skel sh) k d ->
    dchain c d e -> placed x k d -> bcovers x (node_cb (refresh x root p) p) c e.
  Proof.
    intros Hg Hb Hp Hs Hd Hpl. destruct (good_refresh x root p Hg) as ((A & _) & B & C). unfold node_cb.
    apply binv_covers with (k := k) (d := d); auto.
    - rewrite skel_sub, B, Hp. auto.
    - apply vinv_sub; auto.
    - apply binv_sub, binv_refresh; auto.
  Qed.
  Lemma slice_bounds_ok k s u v : nth_error x k = Some s -> s_lb s <= u -> u <= v -> v <= s_ub s ->
    bcovers x (slice_eval_bounds s (Itv (Some u) (Some v))) u v.
  Proof.
    intros Hk H1 H2 H3 t Ht. destruct (chain_in_bounds _ _ _ _ Hc (nth_error_In _ _ Hk)) as (_ & Hlt & _).
    rewrite (eval_t_slice a b x k s t Ok Hk) by lra.
    destruct (slice_eval_bounds_in s u v t Hlt Ht) as (A & B); [lra|].
    assert (E : inter (bnd u v) (s_dom s) = Itv (Some u) (Some v)).
    { rewrite (bnd_lt u v) by auto. unfold s_dom. rewrite (inter_pts_max u v) by auto. rewrite Rmax_left, Rmin_left by lra. apply bnd_lt; auto. }
    rewrite E in A, B. auto.
  Qed.
  Lemma teval_ok : forall sh p root k d la lb u v, shape (skel sh) k d -> dchain la d lb -> placed x k d ->
    ssub p (skel root) = skel sh -> good x root -> binv x root -> la <= u -> u <= v -> v <= lb ->
    bcovers x (fst (teval x sh p root (Itv (Some u) (Some v)))) u v.
  Proof.
    assert (Deg : forall sh k d la lb u, shape (skel sh) k d -> dchain la d lb -> placed x k d -> la <= u -> u <= lb ->
      bcovers x (slice_eval_bounds (slice_k x (tslice sh (tindex sh u))) (Itv (Some u) (Some u))) u u).
    { intros sh k d la lb u Hs Hd Hpl Hu Hv. rewrite (tindex_ok u sh k d la lb Hs Hd Hv).
      assert (Q : forall d la, dchain la d lb -> d <> [] -> la <= u -> exists p, nth_error d (dindex u d) = Some p /\ fst p <= u <= snd p).
      { clear -Hv. induction d as [|q d IH]; intros la Hd Hne Hu; [congruence|]. rewrite dindex_cons. cbn [dchain] in Hd. destruct Hd as (E1 & E2 & E3).
        destruct (Rltb u (snd q)) eqn:E; [apply Rltb_true in E; exists q; split; [auto|lra]|apply Rltb_false in E].
        destruct d as [|q' d]; [cbn in E3; exists q; split; [auto|lra]|]. destruct (IH _ E3) as (p & A & B); [discriminate|lra|]. exists p. auto. }
      destruct (Q d la Hd (shape_ne _ _ _ Hs) Hu) as (p & A & B).
      rewrite (tslice_ok sh k d) by (auto; apply nth_error_Some; congruence).
      destruct (Hpl _ _ A) as (s & Hk & E). unfold slice_k. rewrite (nth_error_nth _ _ _ Hk). rewrite <- E in B. cbn in B.
      apply (slice_bounds_ok _ _ _ _ Hk); lra. }
    induction sh as [k' m|n m t1 IH1 t2 IH2]; intros p root k d la lb u v Hs Hd Hpl Hp Hg Hb Hu Huv Hv; cbn [teval is_degenerated];
      (destruct (Reqb u v) eqn:Euv; [apply Reqb_true in Euv; subst v; cbn [fst lo]; eapply Deg; eauto|apply Reqb_false in Euv]);
      destruct (shape_bounds _ _ _ Hs _ _ Hd) as (E1 & E2); rewrite dom_skel, E1, E2.
    - destruct (itv_eqb (Itv (Some u) (Some v)) (Itv (Some la) (Some lb))) eqn:Ed; cbn [fst].
      + apply bcovers_sub with (u := la) (v := lb); auto. apply (node_cb_ok root p (Leaf k' m) k d); auto.
      + pose proof Hs as Hs0. cbn [skel] in Hs. sinv Hs. destruct (Hpl 0%nat _ eq_refl) as (s & Hk & El). rewrite Nat.add_0_r in Hk.
        unfold slice_k. rewrite (nth_error_nth _ _ _ Hk). cbn in Hd. destruct Hd as (F1 & F2 & F3). injection El as F4 F5. cbn in E1, E2.
        rewrite (inter_pts_max u v) by auto. rewrite Rmax_left, Rmin_left by lra. rewrite bnd_lt by auto.
        apply (slice_bounds_ok _ _ _ _ Hk); lra.
    - destruct (itv_eqb (Itv (Some u) (Some v)) (Itv (Some la) (Some lb))) eqn:Ed; cbn [fst].
      { apply bcovers_sub with (u := la) (v := lb); auto. apply (node_cb_ok root p (Node n m t1 t2) k d); auto. }
      clear Ed. cbn [skel] in Hs, Hp. sinv Hs. apply dchain_app in Hd. destruct Hd as (c & D1 & D2).
      apply placed_app in Hpl. destruct Hpl as (P1 & P2).
      destruct (shape_bounds _ _ _ S1 _ _ D1) as (B1 & B2). destruct (shape_bounds _ _ _ S2 _ _ D2) as (B3 & B4).
      destruct (dchain_le _ _ _ D1) as (L1 & _). destruct (dchain_le _ _ _ D2) as (L2 & _).
      rewrite !dom_skel, B1, B2, B3, B4. rewrite !inter_pts_max by auto.
      rewrite (Rmax_right la u), (Rmin_right lb v) by lra.
      assert (Q1 : ssub (p ++ [true]) (skel root) = skel t1) by (rewrite ssub_app, Hp; auto).
      assert (Q2 : forall root', skel root' = skel root -> ssub (p ++ [false]) (skel root') = skel t2) by (intros root' ->; rewrite ssub_app, Hp; auto).
      destruct (Rle_lt_dec c u) as [Hcu|Hcu].
      + rewrite (bnd_deg u (Rmin c v)) by (unfold Rmin; destruct (Rle_dec c v); lra).
        rewrite (Rmax_right c u) by lra. rewrite (bnd_lt u v) by lra. rewrite deg_no by lra. cbn [negb andb].
        apply (IH2 (p ++ [false]) root _ d2 c lb u v S2 D2 P2 (Q2 _ eq_refl) Hg Hb); lra.
      + destruct (Rle_lt_dec v c) as [Hvc|Hvc].
        * rewrite (Rmin_right c v), (Rmax_left c u) by lra. rewrite (bnd_lt u v), deg_no by lra. rewrite (bnd_deg c v) by lra.
          cbn [negb andb]. apply (IH1 (p ++ [true]) root k d1 la c u v S1 D1 P1 Q1 Hg Hb); lra.
        * rewrite (Rmin_left c v), (Rmax_left c u) by lra. rewrite (bnd_lt u c), (bnd_lt c v), !deg_no by lra. cbn [negb andb].
          pose proof (IH1 (p ++ [true]) root k d1 la c u c S1 D1 P1 Q1 Hg Hb) as R1.
          destruct (teval_good x t1 (p ++ [true]) root (Itv (Some u) (Some c)) Hg) as (R2 & R3).
          pose proof (teval_stable x (binv x) (binv_refresh x) t1 (p ++ [true]) root (Itv (Some u) (Some c)) Hb) as R4.
          destruct (teval x t1 (p ++ [true]) root (Itv (Some u) (Some c))) as (v1 & root1). cbn [fst snd] in *.
          pose proof (IH2 (p ++ [false]) root1 _ d2 c lb c v S2 D2 P2 (Q2 _ R3) R2 R4) as R5.
          destruct (teval x t2 (p ++ [false]) root1 (Itv (Some c) (Some v))) as (v2 & root2). cbn [fst snd] in *.
          apply bcovers_hull with (m := c); [apply R1|apply R5]; lra.
  Qed.
End Eval.

(** ** Histories: writes, then queries *)
Lemma writes_allv x0 ws : allv (snd (history x0 (map Write ws))) /\ flags_up (snd (history x0 (map Write ws))).
Proof.
  unfold history.
  assert (G : forall ws st, allv (snd st) -> flags_up (snd st) -> allv (snd (fold_left step (map Write ws) st)) /\ flags_up (snd (fold_left step (map Write ws) st))).
  { clear. induction ws as [|w ws IH]; intros st A B; cbn [map fold_left]; auto. destruct st as (x & root). cbn [fst snd] in *.
    assert (K : allv (snd (step (x, root) (Write w))) /\ flags_up (snd (step (x, root) (Write w)))).
    { cbn [step fst snd]. destruct (Nat.ltb _ _); cbn [snd]; auto. destruct w; cbn [write_tree]; rewrite (allv_reqv root) by auto; cbn [fst]; auto;
        destruct (reqi_ok root k A B) as (A' & B' & _); auto. }
    apply IH; apply K. }
  destruct (build_allv x0 (length x0) 0 (length x0)) as (A & B & _). apply G; auto.
Qed.
Lemma queries_binv qs : forall st, binv (fst st) (snd st) ->
  fst (fold_left step (map Query qs) st) = fst st /\ binv (fst st) (snd (fold_left step (map Query qs) st)).
Proof.
  induction qs as [|q qs IH]; intros (x & root) Hb; cbn [map fold_left]; auto. cbn [fst snd] in *.
  assert (K : fst (step (x, root) (Query q)) = x /\ binv x (snd (step (x, root) (Query q)))).
  { destruct q; cbn [step fst snd]; (split; [reflexivity|]).
    - apply binv_refresh; auto.
    - apply (top_stable x (binv x) (binv_refresh x)); auto.
    - apply (tinvert_stable x (binv x) (binv_refresh x)); auto.
    - apply (teval_stable x (binv x) (binv_refresh x)); auto.
    - unfold q_integral, tpartial. cbn [fst snd]. destruct (m_ints (mem root)); auto using binv_ints. }
  destruct (step (x, root) (Query q)) as (x' & root'). cbn [fst snd] in *. destruct K as (-> & K). apply (IH (x, root') K).
Qed.
Theorem C58_partial : forall a b x0 ws qs u v t, tube_ok a b x0 ->
  let st := history x0 (map Write ws ++ map Query qs) in let x := fst st in
  tube_ok a b x -> a <= u -> v <= b -> u <= t <= v ->
  (forall r, lbound (eval_t x t) = Some r -> In r (fst (fst (q_bounds st (Itv (Some u) (Some v)))))) /\
  (forall r, ubound (eval_t x t) = Some r -> In r (snd (fst (q_bounds st (Itv (Some u) (Some v)))))).
Proof.
  intros a b x0 ws qs u v t Ok0 st x Ok Hu Hv Ht.
  destruct (C13_inv a b x0 (map Write ws ++ map Query qs) Ok0) as (_ & Hc & Hne & Hg & Hs & Hd). fold st in Hc, Hne, Hg, Hs, Hd. fold x in Hc, Hne, Hg, Hs, Hd.
  assert (Hb : binv x (snd st)).
  { unfold x, st, history. rewrite fold_left_app. fold (history x0 (map Write ws)).
    destruct (queries_binv qs (history x0 (map Write ws))) as (E & K); [apply binv_allv, writes_allv|]. rewrite E. auto. }
  pose proof (teval_ok x a b Ok (snd st) [] (snd st) 0 (doms x) a b u v Hs Hd (placed_all x) eq_refl Hg Hb) as R.
  unfold q_bounds. fold x. apply R; lra.
Qed.
(** A gate written through a slice does not notify the leaf of its neighbour: after eval([0,1]), the input gate of the
    second slice becomes [2], and eval([0,1]) still gives the lower bounds [0,1]. *)
Definition hE : list event := [Query (QBounds (I2 0 1)); Write (WIn 1 (pt 2) true)].
Lemma hE_state : history tA hE = (fst (history tA hE), snd (history tA hE)).
Proof. destruct (history tA hE); auto. Qed.
Lemma hE_tube : fst (history tA hE) = [mkS 0 1 (I2 0 2) (I2 0 1) (pt 2); mkS 1 2 (I2 1 3) (pt 2) (I2 2 3)].
Proof. rewrite history_tube. cbn. unfold Nat.ltb; cbn. reval. unfold mk. reval. reflexivity. Qed.
Theorem C58_refuted : exists a b x0 h u v t r, tube_ok a b x0 /\
  let st := history x0 h in let x := fst st in
  tube_ok a b x /\ a <= u /\ v <= b /\ u <= t <= v /\ lbound (eval_t x t) = Some r /\ ~ In r (fst (fst (q_bounds st (Itv (Some u) (Some v))))).
Proof.
  exists 0, 2, tA, hE, 0, 1, 1, 2. split; [apply tA_ok|]. cbv zeta. rewrite hE_tube.
  split; [tube_ok_tac|]. split; [lra|]. split; [lra|]. split; [lra|]. split; [unfold eval_t, slice_at, in_tdomain, slice_eval; cbn; reval; reflexivity|].
  assert (N1 : inter (Itv (Some 0) (Some 1)) (Itv (Some 0) (Some 1)) = Itv (Some 0) (Some 1)) by (unfold inter, mk; cbn; reval; auto).
  assert (N2 : inter (Itv (Some 1) (Some 2)) (Itv (Some 0) (Some 1)) = Itv (Some 1) (Some 1)) by (unfold inter, mk; cbn; reval; auto).
  assert (N3 : itv_eqb (Itv (Some 0) (Some 1)) (Itv (Some 0) (Some 2)) = false) by (cbn; reval; auto).
  assert (N4 : itv_eqb (Itv (Some 0) (Some 1)) (Itv (Some 0) (Some 1)) = true) by (cbn; reval; auto).
  assert (E : snd (history tA hE) = Node 2 (mkM 0 2 true true (I2 0 3) (I2 0 2, I2 1 3) (ALL, ALL))
    (Leaf 0 (mkM 0 1 false true (I2 0 2) (I2 0 1, I2 1 2) (ALL, ALL)))
    (Leaf 1 (mkM 1 2 true true (I2 1 3) (I2 1 2, I2 2 3) (ALL, ALL)))).
  { unfold history, hE. cbn [fold_left].
    assert (S1 : step (tA, tree_of tA) (Query (QBounds (I2 0 1))) = (tA, update_values tA (tree_of tA))).
    { cbn [step fst snd]. f_equal. unfold q_bounds. cbn [fst snd]. rewrite tree_tA at 1. unfold I2. cbn [teval is_degenerated]. rewrite (Reqb_f 0 1) by lra.
      unfold dom, bnd. cbn [mem m_lb m_ub fresh_memo]. 
      rewrite N1, N2, N3, N4. cbn [is_degenerated]. rewrite (Reqb_f 0 1), (Reqb_t 1 1) by lra. cbn [negb andb snd]. reflexivity. }
    rewrite S1, up_tA. reflexivity. }
  rewrite hE_state, E. unfold q_bounds. cbn [fst snd]. unfold I2. cbn [teval is_degenerated]. rewrite (Reqb_f 0 1) by lra.
  unfold dom, bnd. cbn [mem m_lb m_ub].
  rewrite N1, N2, N3, N4. cbn [is_degenerated]. rewrite (Reqb_f 0 1), (Reqb_t 1 1) by lra. cbn. lra.
Qed.
Definition hF : list event := map Write [WSet 1 (I2 1 2); WIn 1 (I2 1 2) true] ++ map Query [QCodomain; QBounds (I2 0 1)].
Example C58_case : tube_ok 0 2 (fst (history tA hF)) /\ In 1 (fst (fst (q_bounds (history tA hF) (I2 (1/2) (3/2))))).
Proof.
  assert (E : fst (history tA hF) = [mkS 0 1 (I2 0 2) (I2 0 1) (I2 1 2); mkS 1 2 (I2 1 2) (I2 1 2) (I2 1 2)]).
  { rewrite history_tube. cbn. unfold Nat.ltb; cbn. reval. unfold mk. reval. reflexivity. }
  assert (K : tube_ok 0 2 (fst (history tA hF))) by (rewrite E; tube_ok_tac). split; auto.
  apply (proj1 (C58_partial 0 2 tA _ _ (1/2) (3/2) (5/4) tA_ok K ltac:(lra) ltac:(lra) ltac:(lra))).
  fold hF. rewrite E. unfold eval_t, slice_at, in_tdomain, slice_eval; cbn; reval; reflexivity.
Qed.
Print Assumptions C58_partial.
Print Assumptions C58_refuted.
