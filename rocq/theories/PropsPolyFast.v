(** * ThickEdge & box and ConvexPolygon::fast_intersection: the smallest box around the common points *)

From Coq Require Import Reals Lra Psatz Bool List Arith Lia.
Import ListNotations.
From Verif Require Import Itv Arith Tube TubeOps Concrete Geometry PropsGeom PropsGeom2 PropsGeom3 PropsHull PolyArith PropsPolyArith PropsPolyInter PolySimp PropsPolySimp.
Open Scope R_scope.

(** [B] is the smallest box that contains the points of [S] *)
Definition least_box (S : pt2 -> Prop) (B : tpoint) : Prop :=
  (forall z, S z -> ptin z B) /\ forall B', (forall z, S z -> ptin z B') -> forall z, ptin z B -> ptin z B'.

(** ** Hulls of boxes *)
Definition good (t : tpoint) : Prop := t_empty t = true \/ (wf (fst t) /\ wf (snd t) /\ fst t <> Emp /\ snd t <> Emp).
Definition tsub (t B : tpoint) : Prop := forall z, ptin z t -> ptin z B.
Lemma tsub_empty t B : t_empty t = true -> tsub t B.
Proof. unfold t_empty. intros H z [Hz _]. destruct (fst t); [destruct Hz|discriminate]. Qed.
Lemma tsub_comp t B : wf (fst t) -> wf (snd t) -> fst t <> Emp -> snd t <> Emp -> tsub t B -> sub (fst t) (fst B) /\ sub (snd t) (snd B).
Proof.
  intros W1 W2 N1 N2 H. destruct (wf_witness _ W1 N1) as (x & Hx). destruct (wf_witness _ W2 N2) as (y & Hy). split; intros u Hu.
  - apply (H (u, y)). split; assumption.
  - apply (H (x, u)). split; assumption.
Qed.
Lemma hull_ne i j : i <> Emp -> hull i j <> Emp.
Proof. destruct i, j; cbn; congruence. Qed.
Lemma good_hull p q : good p -> good q -> good (t_hull p q).
Proof.
  intros Gp Gq. unfold t_hull. destruct (t_empty p) eqn:Ep; [exact Gq|]. destruct (t_empty q) eqn:Eq; [exact Gp|].
  destruct Gp as [Gp|(A1 & A2 & A3 & A4)]; [congruence|]. destruct Gq as [Gq|(B1 & B2 & B3 & B4)]; [congruence|]. right. cbn [fst snd].
  refine (conj _ (conj _ (conj _ _))); try (apply wf_hull; assumption); apply hull_ne; assumption.
Qed.
Lemma tsub_hull p q B : good p -> good q -> tsub p B -> tsub q B -> tsub (t_hull p q) B.
Proof.
  intros Gp Gq Sp Sq. unfold t_hull. destruct (t_empty p) eqn:Ep; [exact Sq|]. destruct (t_empty q) eqn:Eq; [exact Sp|].
  destruct Gp as [Gp|(A1 & A2 & A3 & A4)]; [congruence|]. destruct Gq as [Gq|(B1 & B2 & B3 & B4)]; [congruence|].
  destruct (tsub_comp p B A1 A2 A3 A4 Sp) as [P1 P2]. destruct (tsub_comp q B B1 B2 B3 B4 Sq) as [Q1 Q2].
  intros z [Z1 Z2]. cbn in Z1, Z2. split; [revert Z1|revert Z2]; apply hull_least; assumption.
Qed.
Lemma good_tvec p : good (tvec p).
Proof. right. rewrite tvec_some. cbn. repeat split; try lra; discriminate. Qed.
Lemma good_none : good t_none.
Proof. left. reflexivity. Qed.
Lemma good_tpt x y : wf x -> wf y -> good (tpt x y).
Proof.
  intros W1 W2. unfold tpt. destruct x as [|a b]; [left; destruct y; reflexivity|]. destruct y as [|c d]; [left; reflexivity|]. right. cbn [is_empty fst snd].
  repeat split; auto; discriminate.
Qed.
Lemma tsub_tvec p B : ptin p B -> tsub (tvec p) B.
Proof. intros H z Hz. apply ptin_tvec_iff in Hz. subst. exact H. Qed.

(** ** An edge and a box *)
Lemma In_I2 x a b : In x (I2 a b) <-> a <= x <= b.
Proof. reflexivity. Qed.
Lemma wf_I2 a b : a <= b -> wf (I2 a b).
Proof. intros H. exact H. Qed.
Lemma e_box_in p q z : on_seg p q z -> ptin z (e_box (tvec p, tvec q)).
Proof. intros H. rewrite <- tedge_pts. apply (on_seg_box (tvec p) (tvec q) p q); auto using ptin_tvec. Qed.
Lemma t_inter_in z p q : ptin z (t_inter p q) <-> ptin z p /\ ptin z q.
Proof. unfold t_inter. rewrite tpt_in, !In_inter. unfold ptin. tauto. Qed.
Lemma is_degenerated_minmax x y : is_degenerated (I2 (Rmin x y) (Rmax x y)) = Reqb x y.
Proof.
  unfold is_degenerated, I2. destruct (Reqb x y) eqn:E.
  - apply Reqb_true in E. subst. rewrite Rmin_left, Rmax_left by lra. apply Reqb_refl.
  - apply Reqb_false in E. apply Reqb_f. unfold Rmin, Rmax. destruct (Rle_dec x y); lra.
Qed.
Lemma axis_seg p q z : axis_parallel p q -> ptin z (e_box (tvec p, tvec q)) -> on_seg p q z.
Proof.
  intros H. rewrite e_box_pts. intros [Z1 Z2]. cbn [fst snd] in Z1, Z2. rewrite In_I2 in Z1, Z2. destruct (v_eqb p q) eqn:EQ.
  { unfold v_eqb in EQ. apply andb_prop in EQ as [E1 E2]. apply Reqb_true in E1, E2. exists 0. rewrite E1, E2, Rmin_left, Rmax_left in * by lra. lra. }
  destruct H as [H|H].
  - assert (N : snd p <> snd q). { intros X. unfold v_eqb in EQ. rewrite H, X, !Reqb_refl in EQ. discriminate. }
    exists ((snd z - snd p) / (snd q - snd p)). rewrite H in *. rewrite Rmin_left, Rmax_left in Z1 by lra. split; [|split; [lra|field; lra]].
    destruct (Rlt_dec (snd p) (snd q)).
    + rewrite Rmin_left, Rmax_right in Z2 by lra. split; [apply Rmult_le_pos; [lra|left; apply Rinv_0_lt_compat; lra]|apply (Rmult_le_reg_r (snd q - snd p)); [lra|]; field_simplify; lra].
    + rewrite Rmin_right, Rmax_left in Z2 by lra. replace ((snd z - snd p) / (snd q - snd p)) with ((snd p - snd z) / (snd p - snd q)) by (field; lra).
      split; [apply Rmult_le_pos; [lra|left; apply Rinv_0_lt_compat; lra]|apply (Rmult_le_reg_r (snd p - snd q)); [lra|]; field_simplify; lra].
  - assert (N : fst p <> fst q). { intros X. unfold v_eqb in EQ. rewrite H, X, !Reqb_refl in EQ. discriminate. }
    exists ((fst z - fst p) / (fst q - fst p)). rewrite H in *. rewrite Rmin_left, Rmax_left in Z2 by lra. split; [|split; [field; lra|lra]].
    destruct (Rlt_dec (fst p) (fst q)).
    + rewrite Rmin_left, Rmax_right in Z1 by lra. split; [apply Rmult_le_pos; [lra|left; apply Rinv_0_lt_compat; lra]|apply (Rmult_le_reg_r (fst q - fst p)); [lra|]; field_simplify; lra].
    + rewrite Rmin_right, Rmax_left in Z1 by lra. replace ((fst z - fst p) / (fst q - fst p)) with ((fst p - fst z) / (fst p - fst q)) by (field; lra).
      split; [apply Rmult_le_pos; [lra|left; apply Rinv_0_lt_compat; lra]|apply (Rmult_le_reg_r (fst p - fst q)); [lra|]; field_simplify; lra].
Qed.
(** a slanted edge and a point have no intersection for the code *)
Lemma e_inter_slanted p q c : ~ axis_parallel p q -> e_inter gexact (tvec p, tvec q) (tvec c, tvec c) = t_none.
Proof.
  intros N. assert (N1 : fst p <> fst q) by (intros X; apply N; left; exact X). assert (N2 : snd p <> snd q) by (intros X; apply N; right; exact X).
  assert (NE : p <> q) by (intros ->; contradiction).
  unfold e_inter, proj_intersection, proj0. rewrite !degenerated_pts, v_eqb_t, (v_eqb_f p q NE). cbn [is_no negb andb].
  rewrite !vertical_pts, !horizontal_pts, (Reqb_f _ _ N1), (Reqb_f _ _ N2). cbn [is_no negb andb]. rewrite !tvec_some.
  cbn [fst snd gexact g_ar g_div iadd isub imul exact]. rewrite !xmul_pt, !xsub_pt, !xmul_pt, !xsub_pt.
  replace ((fst c - fst c) * (snd p - snd q) - (snd c - snd c) * (fst p - fst q)) with 0 by ring.
  assert (E : forall u, xdiv (pt u) (pt 0) = Emp) by (intros u; unfold xdiv, pt; cbn; reval; reflexivity). rewrite !E. reflexivity.
Qed.
Lemma fold_hull_in {X} (f : X -> tpoint) l z : forall i0, ptin z i0 \/ (exists e, List.In e l /\ ptin z (f e)) -> ptin z (fold_left (fun i e => t_hull i (f e)) l i0).
Proof.
  induction l as [|e l IH]; intros i0 H; cbn [fold_left].
  - destruct H as [H|(e & [] & _)]. exact H.
  - apply IH. destruct H as [H|(e' & [<-|H] & Hz)]; [left; apply t_hull_l, H|left; apply t_hull_r, Hz|right; eauto].
Qed.
Lemma fold_hull_least {X} (f : X -> tpoint) l B : (forall e, List.In e l -> good (f e) /\ tsub (f e) B) -> forall i0, good i0 -> tsub i0 B ->
  good (fold_left (fun i e => t_hull i (f e)) l i0) /\ tsub (fold_left (fun i e => t_hull i (f e)) l i0) B.
Proof.
  induction l as [|e l IH]; intros H i0 G T; cbn [fold_left]; [auto|].
  destruct (H e (or_introl eq_refl)) as [Ge Te]. apply IH; [intros e' He'; apply H; right; exact He'|apply good_hull; assumption|apply tsub_hull; assumption].
Qed.
Lemma box_edges_pts a b c d : box_edges (I2 a b, I2 c d) =
  [(tvec (a, c), tvec (b, c)); (tvec (b, c), tvec (b, d)); (tvec (b, d), tvec (a, d)); (tvec (a, d), tvec (a, c))].
Proof. reflexivity. Qed.
Lemma t_subset_tvec p a b c d : a <= b -> c <= d -> (t_subset (tvec p) (I2 a b, I2 c d) = true <-> ptin p (I2 a b, I2 c d)).
Proof.
  intros Hab Hcd. unfold t_subset. rewrite tvec_some. cbn [t_empty is_empty pt I2 fst snd]. change (Itv (Some ?x) (Some ?x)) with (pt x). change (Itv (Some a) (Some b)) with (I2 a b).
  change (Itv (Some c) (Some d)) with (I2 c d). rewrite andb_true_iff, !is_subset_spec by (cbn; lra). unfold ptin. cbn [fst snd]. split.
  - intros [A B]. split; [apply A|apply B]; apply In_pt; reflexivity.
  - intros [A B]. split; intros x Hx; apply In_pt in Hx; subst; assumption.
Qed.
Definition corners (a b c d : R) : polygon := [(a, c); (b, c); (b, d); (a, d)].
Lemma corners_ccw a b c d : a < b -> c < d -> ccw (corners a b c d).
Proof. intros. apply quad_ccw; unfold area; cbn; nra. Qed.
Lemma corners_conv a b c d z : a <= b -> c <= d -> (conv (corners a b c d) z <-> ptin z (I2 a b, I2 c d)).
Proof.
  intros Hab Hcd. split.
  - apply in_conv_box. intros v [<-|[<-|[<-|[<-|[]]]]]; split; cbn; lra.
  - apply conv_corners; auto; cbn; tauto.
Qed.
Lemma edge_least p q a b c d B' : a <= b -> c <= d -> (forall z, on_seg p q z /\ ptin z (I2 a b, I2 c d) -> ptin z B') ->
  good (e_inter_box gexact (tvec p, tvec q) (I2 a b, I2 c d)) /\ tsub (e_inter_box gexact (tvec p, tvec q) (I2 a b, I2 c d)) B'.
Proof.
  intros Hab Hcd H. unfold e_inter_box. rewrite e_box_pts. cbn [fst snd]. rewrite !is_degenerated_minmax, <- e_box_pts.
  destruct (Reqb (fst p) (fst q) || Reqb (snd p) (snd q)) eqn:F.
  - assert (AX : axis_parallel p q) by (apply orb_prop in F as [F|F]; apply Reqb_true in F; [left|right]; exact F).
    split; [apply good_tpt; apply wf_inter|]. intros z Hz. apply t_inter_in in Hz as [Z1 Z2]. apply H. split; [apply axis_seg; assumption|exact Z1].
  - apply orb_false_iff in F as [F1 F2]. apply Reqb_false in F1, F2. assert (NA : ~ axis_parallel p q) by (intros [X|X]; contradiction).
    assert (NE : p <> q) by (intros ->; contradiction).
    set (r := (I2 a b, I2 c d)) in *. assert (TS : forall v, t_subset (tvec v) r = true <-> ptin v r) by (intros v; apply t_subset_tvec; assumption).
    set (i0 := if t_subset (tvec p) r then tvec p else t_none).
    set (i1 := if t_subset (tvec q) r then t_hull i0 (tvec q) else i0).
    assert (I1 : good i1 /\ tsub i1 B').
    { assert (J0 : good i0 /\ tsub i0 B').
      { unfold i0. destruct (t_subset (tvec p) r) eqn:E; [|split; [apply good_none|apply tsub_empty; reflexivity]].
        apply (TS p) in E. split; [apply good_tvec|]. apply tsub_tvec, H. split; [|exact E]. exists 0. lra. }
      destruct J0 as [G0 T0]. unfold i1. destruct (t_subset (tvec q) r) eqn:E; [|split; assumption]. apply (TS q) in E.
      assert (T : tsub (tvec q) B') by (apply tsub_tvec, H; split; [exists 1; lra|exact E]).
      split; [apply good_hull|apply tsub_hull]; auto using good_tvec. }
    destruct (_ && _); [exact I1|]. destruct I1 as [G1 T1].
    apply fold_hull_least; auto. intros e He. unfold r in He. rewrite box_edges_pts in He.
    assert (S2 : exists s1 s2, e = (tvec s1, tvec s2) /\ (forall u, on_seg s1 s2 u -> ptin u r) /\ axis_parallel s1 s2).
    { destruct He as [<-|[<-|[<-|[<-|[]]]]]; eexists; eexists; (split; [reflexivity|]); (split; [|unfold axis_parallel; cbn; tauto]);
        intros u (k & Kk & E1 & E2); cbn [fst snd] in E1, E2; split; cbn [r fst snd]; rewrite In_I2, ?E1, ?E2; nra. }
    destruct S2 as (s1 & s2 & -> & Hin & AX). destruct (v_eqb s1 s2) eqn:EQ.
    { assert (s1 = s2) as ->. { unfold v_eqb in EQ. apply andb_prop in EQ as [E1 E2]. apply Reqb_true in E1, E2. destruct s1, s2. cbn in *. congruence. }
      rewrite (e_inter_slanted p q s2 NA). split; [apply good_none|apply tsub_empty; reflexivity]. }
    assert (NS : s1 <> s2) by (intros ->; rewrite v_eqb_t in EQ; discriminate).
    assert (D : det p q s1 s2 <> 0).
    { unfold det. intros X. destruct (ne_cases s1 s2 NS) as [N|N]; destruct AX as [A|A]; try contradiction.
      - rewrite A in X. assert (E : (snd q - snd p) * (fst s2 - fst s1) = 0) by lra. destruct (Rmult_integral _ _ E); lra.
      - rewrite A in X. assert (E : (fst q - fst p) * (snd s2 - snd s1) = 0) by lra. destruct (Rmult_integral _ _ E); lra. }
    destruct (e_inter_det p q s1 s2 NE NS D) as [_ [E|(u & E & U1 & U2)]]; rewrite E.
    -- split; [apply good_none|apply tsub_empty; reflexivity].
    -- split; [apply good_tvec|]. apply tsub_tvec, H. split; [exact U1|apply Hin, U2].
Qed.
(** the part of an edge that is in a box that is not a point *)
Theorem C85_edge_partial : forall p q a b c d, a <= b -> c <= d -> axis_parallel p q \/ a < b \/ c < d ->
  least_box (fun z => on_seg p q z /\ ptin z (I2 a b, I2 c d)) (e_inter_box gexact (tvec p, tvec q) (I2 a b, I2 c d)).
Proof.
  intros p q a b c d Hab Hcd K. split; [|intros B' H; apply (edge_least p q a b c d B' Hab Hcd H)]. unfold e_inter_box. rewrite e_box_pts. cbn [fst snd]. rewrite !is_degenerated_minmax, <- e_box_pts.
  destruct (Reqb (fst p) (fst q) || Reqb (snd p) (snd q)) eqn:F.
  - assert (AX : axis_parallel p q) by (apply orb_prop in F as [F|F]; apply Reqb_true in F; [left|right]; exact F).
    intros z [Z1 Z2]. apply t_inter_in. split; [exact Z2|apply e_box_in, Z1].
  - apply orb_false_iff in F as [F1 F2]. apply Reqb_false in F1, F2. assert (NA : ~ axis_parallel p q) by (intros [X|X]; contradiction).
    assert (K' : a < b \/ c < d) by tauto. clear K. assert (NE : p <> q) by (intros ->; contradiction).
    set (r := (I2 a b, I2 c d)). assert (TS : forall v, t_subset (tvec v) r = true <-> ptin v r) by (intros v; apply t_subset_tvec; assumption). set (i0 := if t_subset (tvec p) r then tvec p else t_none).
    set (i1 := if t_subset (tvec q) r then t_hull i0 (tvec q) else i0).
    assert (Ip : ptin p r -> ptin p i1).
    { intros H. assert (E : ptin p i0) by (unfold i0; rewrite (proj2 (TS p) H); apply ptin_tvec). unfold i1. destruct (t_subset (tvec q) r); [apply t_hull_l|]; exact E. }
    assert (Iq : ptin q r -> ptin q i1).
    { intros H. unfold i1. rewrite (proj2 (TS q) H). apply t_hull_r, ptin_tvec. }
    destruct (t_subset (tvec p) r && t_subset (tvec q) r) eqn:BOTH.
    + apply andb_prop in BOTH as [B1 B2]. apply (TS p) in B1. apply (TS q) in B2.
      intros z [Z1 Z2]. destruct (mix_eq p q z Z1) as (k & Kk & ->). apply (ptin_convex i1); auto.
    + intros z [Z1 Z2]. set (RES := fold_left _ _ _).
        assert (IN : forall u, ptin u i1 -> ptin u RES) by (intros u Hu; apply fold_hull_in; left; exact Hu).
        assert (SIDE : forall s1 s2 u, List.In (tvec s1, tvec s2) (box_edges r) -> det p q s1 s2 <> 0 -> on_seg p q u -> on_seg s1 s2 u -> ptin u RES).
        { intros s1 s2 u Hs D U1 U2. apply fold_hull_in. right. exists (tvec s1, tvec s2). split; [exact Hs|]. rewrite <- !tedge_pts.
          apply (C65_intersection_partial gexact gexact_ok _ _ _ _ p q s1 s2); auto using ptin_tvec. }
        destruct (Rlt_dec a b) as [L1|L1]; [destruct (Rlt_dec c d) as [L2|L2]|].
        -- apply (seg_common (corners a b c d) (fun u => ptin u RES) p q z (corners_ccw a b c d L1 L2)); auto.
           ++ apply ptin_convex.
           ++ intros H. apply corners_conv in H; auto.
           ++ intros H. apply corners_conv in H; auto.
           ++ intros u j Hj D U1 U2. apply (SIDE _ _ u) in U2; auto. unfold r. rewrite box_edges_pts. cbn in Hj.
              destruct j as [|[|[|[|j]]]]; [cbn; tauto|cbn; tauto|cbn; tauto|cbn; tauto|lia].
           ++ apply corners_conv; auto.
        -- assert (c = d) as -> by lra. destruct Z2 as [Z2 Z3]. cbn in Z2, Z3. apply (SIDE (a, d) (b, d) z); auto.
           ++ left. reflexivity.
           ++ unfold det. cbn. intros X. apply F2. assert (E : (snd q - snd p) * (b - a) = 0) by lra. destruct (Rmult_integral _ _ E); lra.
           ++ destruct (seg_param a b (fst z) Z2) as (k & Kk & E). exists k. cbn. split; [lra|]. split; lra.
        -- assert (a = b) as -> by lra. assert (L2 : c < d) by lra. destruct Z2 as [Z2 Z3]. cbn in Z2, Z3. apply (SIDE (b, c) (b, d) z); auto.
           ++ right. left. reflexivity.
           ++ unfold det. cbn. intros X. apply F1. assert (E : (fst q - fst p) * (d - c) = 0) by lra. destruct (Rmult_integral _ _ E); lra.
           ++ destruct (seg_param c d (snd z) Z3) as (k & Kk & E). exists k. cbn. split; [lra|]. split; lra.
Qed.
(** an edge and a point of it: the point is lost when the edge is slanted *)
Theorem C85_edge_refuted : exists p q z, on_seg p q z /\ ~ ptin z (e_inter_box gexact (tvec p, tvec q) (tvec z)).
Proof.
  exists (0, 0), (2, 2), (1, 1). split; [exists (1 / 2); cbn; lra|]. rewrite (tvec_some (1, 1)). change (pt (fst (1, 1)), pt (snd (1, 1))) with (I2 1 1, I2 1 1).
  unfold e_inter_box. rewrite e_box_pts. cbn [fst snd]. rewrite !is_degenerated_minmax, (Reqb_f 0 2) by lra. cbn [orb].
  assert (T : forall v : pt2, fst v <> 1 -> t_subset (tvec v) (I2 1 1, I2 1 1) = false).
  { intros v N. destruct (t_subset _ _) eqn:E; [|reflexivity]. apply t_subset_tvec in E; try lra. destruct E as [E _]. cbn in E. lra. }
  rewrite !T by (cbn; lra). cbn [andb]. rewrite box_edges_pts. cbn [fold_left].
  rewrite !e_inter_slanted by (intros [X|X]; cbn in X; lra). intros [[] _].
Qed.

(** ** The polygon and the box *)
Lemma inter_I2 i l u : inter i (I2 l u) = Emp \/ exists a b, inter i (I2 l u) = I2 a b /\ a <= b.
Proof.
  destruct i as [|lo hi]; [left; reflexivity|]. unfold inter, I2. destruct lo as [lo|], hi as [hi|]; cbn [max_lo min_hi]; unfold mk; destruct (Rle_dec _ _) as [Q|Q]; auto; right; eexists; eexists; (split; [reflexivity|exact Q]).
Qed.
Lemma fold_filter (f : tpoint -> bool) l : forall i0, fold_left (fun i q => if f q then i else t_hull i q) l i0 = fold_left (fun i q => t_hull i q) (filter (fun q => negb (f q)) l) i0.
Proof. induction l as [|q l IH]; intros i0; cbn [fold_left filter]; [reflexivity|]. destruct (f q); cbn [negb fold_left]; apply IH. Qed.
Lemma box_vertices_pts a b c d : box_vertices (I2 a b, I2 c d) = [tvec (a, c); tvec (b, c); tvec (b, d); tvec (a, d)].
Proof. reflexivity. Qed.
Lemma seg_first p q : on_seg p q p.
Proof. exists 0. lra. Qed.
Lemma edge_conv P i z : (i < length P)%nat -> on_seg (nth i P (0, 0)) (nth (S i mod length P) P (0, 0)) z -> conv P z.
Proof.
  intros Hi. apply conv_seg; apply conv_vertex, nth_In; [exact Hi|]. apply Nat.mod_upper_bound. lia.
Qed.
Lemma least_ext (S T : pt2 -> Prop) B : (forall z, S z <-> T z) -> least_box S B -> least_box T B.
Proof. intros E [H1 H2]. split; [intros z Hz; apply H1, E, Hz|]. intros B' H. apply H2. intros z Hz. apply H, E, Hz. Qed.
Theorem C85_fast : forall P x, ccw P -> least_box (fun z => conv P z /\ ptin z x) (fast_intersection gexact P x).
Proof.
  intros P x C. pose proof (proj1 C) as L3. unfold fast_intersection. destruct P as [|p0 P0] eqn:EP; [cbn in L3; lia|]. rewrite <- EP in *. clear EP p0 P0.
  cbn [orb]. destruct (t_empty x) eqn:Ex.
  { split; [intros z [_ Hz]; destruct (tsub_empty x t_none Ex z Hz) as [[] _]|intros B' _ z [[] _]]. }
  destruct (box_spec P) as (xl & xu & yl & yu & EB & AB & _). { intros ->. cbn in L3. lia. }
  set (r := t_inter x (poly_box P)).
  apply (least_ext (fun z => conv P z /\ ptin z r)).
  { intros z. unfold r. rewrite t_inter_in. split; [tauto|]. intros [H1 H2]. refine (conj H1 (conj H2 _)). rewrite EB.
    destruct (conv_box P z xl xu yl yu AB H1) as [Hx Hy]. split; cbn; lra. }
  destruct (t_empty r) eqn:Er.
  { split; [intros z [_ Hz]; exact Hz|intros B' _; apply tsub_empty, Er]. }
  assert (RR : exists a b c d, r = (I2 a b, I2 c d) /\ a <= b /\ c <= d).
  { unfold r in *. rewrite EB in *. unfold t_inter in *. cbn [fst snd] in *. destruct (inter_I2 (fst x) xl xu) as [E|(a & b & E & Hab)]; rewrite E in *.
    - unfold tpt, t_empty in Er. cbn in Er. destruct (is_empty (inter _ _)) in Er; discriminate.
    - destruct (inter_I2 (snd x) yl yu) as [E'|(c & d & E' & Hcd)]; rewrite E' in *; [discriminate|]. exists a, b, c, d. split; [reflexivity|]. lra. }
  clearbody r. destruct RR as (a & b & c & d & -> & Hab & Hcd). clear Er EB. rewrite fold_filter, box_vertices_pts. set (r := (I2 a b, I2 c d)).
  set (VS := filter _ _).
  assert (VSin : forall v, List.In v (corners a b c d) -> conv P v -> List.In (tvec v) VS).
  { intros v Hv HC. apply filter_In. split; [|apply contains_not_no; assumption]. destruct Hv as [<-|[<-|[<-|[<-|[]]]]]; cbn; tauto. }
  assert (VSok : forall t, List.In t VS -> exists v, t = tvec v /\ conv P v /\ ptin v r).
  { intros t Ht. apply filter_In in Ht as [H1 H2]. destruct H1 as [<-|[<-|[<-|[<-|[]]]]]; eexists; (split; [reflexivity|]); (split; [apply contains_not_no; assumption|split; cbn; lra]). }
  clearbody VS. set (i0 := fold_left _ (edges P) t_none). set (RES := fold_left _ VS i0). split.
  - intros z [Z1 Z2].
    assert (IV : forall v, List.In v (corners a b c d) -> conv P v -> ptin v RES).
    { intros v Hv HC. apply fold_hull_in. right. exists (tvec v). split; [apply VSin; assumption|apply ptin_tvec]. }
    destruct (Rlt_dec a b) as [L1|L1]; [|destruct (Rlt_dec c d) as [L2|L2]].
    3: { assert (a = b) as -> by lra. assert (c = d) as -> by lra. apply IV; [|exact Z1]. left. destruct Z2 as [X Y]. cbn in X, Y. destruct z. cbn in *. apply pair_eq; lra. }
    all: assert (K : a < b \/ c < d) by lra.
    all: assert (IE : forall i u, (i < length P)%nat -> on_seg (nth i P (0, 0)) (nth (S i mod length P) P (0, 0)) u -> ptin u r -> ptin u RES).
    1,3: intros i u Hi Hu Hr; apply fold_hull_in; left; apply fold_hull_in; right; eexists; split; [apply (pairs_mem P i Hi)|];
         apply (proj1 (C85_edge_partial (nth i P (0, 0)) (nth (S i mod length P) P (0, 0)) a b c d Hab Hcd (or_intror K))); split; assumption.
    + destruct (Rlt_dec c d) as [L2|L2].
      * apply (common_points P (corners a b c d) (fun u => ptin u RES) C (corners_ccw a b c d L1 L2) (ptin_convex RES)); auto.
        -- intros v Hv HQ. apply corners_conv in HQ; auto. apply (In_nth _ _ (0, 0)) in Hv as (i & Hi & <-). apply (IE i); auto. apply seg_first.
        -- intros u (i & j & Hi & Hj & D & S1 & S2). apply (IE i); auto. apply (corners_conv a b c d u Hab Hcd). exact (edge_conv _ j u Hj S2).
        -- apply corners_conv; auto.
      * assert (c = d) as -> by lra. destruct Z2 as [X Y]. cbn in X, Y. apply (seg_common P (fun u => ptin u RES) (a, d) (b, d) z C (ptin_convex RES)); auto.
        -- apply IV. cbn. tauto.
        -- apply IV. cbn. tauto.
        -- intros u j Hj D S1 S2. apply (IE j); auto. destruct S1 as (k & Kk & E1 & E2). cbn [fst snd] in E1, E2. split; cbn [r fst snd]; rewrite In_I2, ?E1, ?E2; nra.
        -- destruct (seg_param a b (fst z) X) as (k & Kk & E). exists k. cbn. split; [lra|]. split; lra.
    + assert (a = b) as -> by lra. destruct Z2 as [X Y]. cbn in X, Y. apply (seg_common P (fun u => ptin u RES) (b, c) (b, d) z C (ptin_convex RES)); auto.
      * apply IV. cbn. tauto.
      * apply IV. cbn. tauto.
      * intros u j Hj D S1 S2. apply (IE j); auto. destruct S1 as (k & Kk & E1 & E2). cbn [fst snd] in E1, E2. split; cbn [r fst snd]; rewrite In_I2, ?E1, ?E2; nra.
      * destruct (seg_param c d (snd z) Y) as (k & Kk & E). exists k. cbn. split; [lra|]. split; lra.
  - intros B' H. assert (T0 : good i0 /\ tsub i0 B').
    { apply fold_hull_least; [|apply good_none|apply tsub_empty; reflexivity]. intros e He. rewrite edges_pairs in He. apply in_map_iff in He as (u & <- & Hu).
      apply pairs_In in Hu as (i & Hi & ->). cbn [fst snd]. apply edge_least; auto. intros z [Z1 Z2]. apply H. split; [apply (edge_conv P i z Hi Z1)|exact Z2]. }
    apply fold_hull_least; [|apply T0|apply T0]. intros t Ht. destruct (VSok t Ht) as (v & -> & V1 & V2). split; [apply good_tvec|]. apply tsub_tvec, H. split; assumption.
Qed.

(** ** Concrete cases *)
(** a slanted edge that goes through a box *)
Example C85_edge_case : ptin (1, 1) (e_inter_box gexact (tvec (0, 0), tvec (2, 2)) (I2 1 3, I2 0 1)) /\
  ~ ptin (3 / 2, 1) (e_inter_box gexact (tvec (0, 0), tvec (2, 2)) (I2 1 3, I2 0 1)).
Proof.
  assert (K : axis_parallel (0, 0) (2, 2) \/ 1 < 3 \/ 0 < 1) by (right; left; lra).
  destruct (C85_edge_partial (0, 0) (2, 2) 1 3 0 1 ltac:(lra) ltac:(lra) K) as [H1 H2]. split.
  - apply H1. split; [exists (1 / 2); cbn; lra|split; cbn; lra].
  - intros H. apply (H2 (tvec (1, 1))) in H; [apply ptin_tvec_iff in H; injection H; lra|].
    intros z [(k & Kk & E1 & E2) [X Y]]. cbn in E1, E2, X, Y. apply ptin_tvec_iff. destruct z. cbn in *. apply pair_eq; lra.
Qed.
(** the triangle (0,0) (2,0) (0,2) and the box [1,3] x [0,3]: the smallest box is [1,2] x [0,1] *)
Example C85_fast_case : ccw triangle /\ least_box (fun z => conv triangle z /\ ptin z (I2 1 3, I2 0 3)) (fast_intersection gexact triangle (I2 1 3, I2 0 3)) /\
  ptin (2, 1) (fast_intersection gexact triangle (I2 1 3, I2 0 3)) /\ ~ ptin (2, 3 / 2) (fast_intersection gexact triangle (I2 1 3, I2 0 3)).
Proof.
  pose proof (proj1 C82_neg_case) as C. pose proof (C85_fast triangle (I2 1 3, I2 0 3) C) as F. refine (conj C (conj F _)). destruct F as [F1 F2]. split.
  - assert (A : ptin (1, 1) (fast_intersection gexact triangle (I2 1 3, I2 0 3))) by (apply F1; split; [apply triangle_in; lra|split; cbn; lra]).
    assert (B : ptin (2, 0) (fast_intersection gexact triangle (I2 1 3, I2 0 3))) by (apply F1; split; [apply triangle_in; lra|split; cbn; lra]).
    split; [exact (proj1 B)|exact (proj2 A)].
  - intros H. apply (F2 (I2 1 2, I2 0 1)) in H; [destruct H as [_ H]; cbn in H; lra|].
    intros z [Z1 [X Y]]. cbn in X, Y. apply (conv_half triangle (-1) (-1) 2) in Z1; [split; cbn; lra|]. intros v [<-|[<-|[<-|[]]]]; cbn; lra.
Qed.
Print Assumptions C85_edge_partial.
Print Assumptions C85_edge_refuted.
Print Assumptions C85_fast.
