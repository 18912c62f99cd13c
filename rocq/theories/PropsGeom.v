(** * Intersection of edges, verdicts of ConvexPolygon::contains on thick points *)

From Coq Require Import Reals Lra Bool List Arith Lia.
Import ListNotations.
From Verif Require Import Itv Arith Tube TubeOps Concrete Geometry.
Open Scope R_scope.

(** ** The exact arithmetic meets the contract *)
Lemma Rdiv_range a c d y : c <= y <= d -> (0 < c \/ d < 0) -> Rmin (a / c) (a / d) <= a / y <= Rmax (a / c) (a / d).
Proof.
  intros [Hc Hd] H.
  assert (Hy : 0 < y \/ y < 0) by lra.
  assert (I : / d <= / y <= / c).
  { destruct H; [split; apply Rinv_le_contravar; lra|].
    split.
    - assert (/ - y <= / - d) by (apply Rinv_le_contravar; lra).
      rewrite !Rinv_opp in H0. lra.
    - assert (/ - c <= / - y) by (apply Rinv_le_contravar; lra).
      rewrite !Rinv_opp in H0. lra. }
  unfold Rdiv. destruct (Rle_dec 0 a).
  - assert (a * / d <= a * / y) by (apply Rmult_le_compat_l; lra).
    assert (a * / y <= a * / c) by (apply Rmult_le_compat_l; lra).
    pose proof (Rmin_r (a * / c) (a * / d)). pose proof (Rmax_l (a * / c) (a * / d)). lra.
  - assert (a * / c <= a * / y) by (apply Rmult_le_compat_neg_l; lra).
    assert (a * / y <= a * / d) by (apply Rmult_le_compat_neg_l; lra).
    pose proof (Rmin_l (a * / c) (a * / d)). pose proof (Rmax_r (a * / c) (a * / d)). lra.
Qed.
Theorem gexact_ok : garith_ok gexact.
Proof.
  constructor.
  - exact exact_ok.
  - intros x y [|a b] [|c d] Hx Hy N; try contradiction. cbn [gexact g_div xdiv].
    destruct c as [c|], d as [d|]; try (destruct a, b; apply In_ALL).
    destruct (Reqb c 0 && Reqb d 0) eqn:E0.
    { apply andb_prop in E0 as [E1 E2]. apply Reqb_true in E1, E2. cbn in Hy. lra. }
    destruct (Rltb 0 c || Rltb d 0) eqn:E1; [|destruct a, b; apply In_ALL].
    destruct a as [a|], b as [b|]; try apply In_ALL.
    assert (S : 0 < c \/ d < 0).
    { apply orb_prop in E1 as [E1|E1]; apply Rltb_true in E1; auto. }
    cbn in Hx, Hy. cbn.
    destruct (Rdiv_range a c d y Hy S) as [A1 A2]. destruct (Rdiv_range b c d y Hy S) as [B1 B2].
    assert (M : Rmin (a / y) (b / y) <= x / y <= Rmax (a / y) (b / y)).
    { unfold Rdiv. destruct (Rle_dec 0 (/ y)).
      - assert (a * / y <= x * / y) by (apply Rmult_le_compat_r; lra).
        assert (x * / y <= b * / y) by (apply Rmult_le_compat_r; lra).
        pose proof (Rmin_l (a * / y) (b * / y)). pose proof (Rmax_r (a * / y) (b * / y)). lra.
      - assert (/ y * b <= / y * x) by (apply Rmult_le_compat_neg_l; lra).
        assert (/ y * x <= / y * a) by (apply Rmult_le_compat_neg_l; lra).
        rewrite (Rmult_comm a), (Rmult_comm b), (Rmult_comm x).
        pose proof (Rmin_r (/ y * a) (/ y * b)). pose proof (Rmax_l (/ y * a) (/ y * b)). lra. }
    unfold min4, max4. unfold Rmin, Rmax in *.
    repeat match goal with |- context [Rle_dec ?u ?v] => destruct (Rle_dec u v) end;
      repeat match goal with H : context [Rle_dec ?u ?v] |- _ => destruct (Rle_dec u v) end; lra.
  - intros x [|[a|] [b|]] Hx; try contradiction; try apply In_ALL.
    cbn in Hx. cbn [gexact g_sqr xsqr].
    destruct (Rleb 0 a) eqn:E1.
    { apply Rleb_true in E1. cbn. nra. }
    destruct (Rleb b 0) eqn:E2.
    { apply Rleb_true in E2. apply Rleb_false in E1. cbn. nra. }
    apply Rleb_false in E1, E2. cbn. split; [nra|].
    pose proof (Rmax_l (a * a) (b * b)). pose proof (Rmax_r (a * a) (b * b)).
    destruct (Rle_dec 0 x); nra.
Qed.

(** ** Specification *)
(** a point of a thick point *)
Definition ptin (z : pt2) (p : tpoint) : Prop := In (fst z) (fst p) /\ In (snd z) (snd p).
(** a point of the segment [pq] *)
Definition on_seg (p q z : pt2) : Prop :=
  exists k, 0 <= k <= 1 /\ fst z = fst p + k * (fst q - fst p) /\ snd z = snd p + k * (snd q - snd p).
(** determinant of the directions of the lines (p1 p2) and (q1 q2) *)
Definition det (p1 p2 q1 q2 : pt2) : R :=
  (fst p2 - fst p1) * (snd q2 - snd q1) - (snd p2 - snd p1) * (fst q2 - fst q1).
(** the segment is parallel to an axis (or is a point) *)
Definition axis_parallel (p q : pt2) : Prop := fst p = fst q \/ snd p = snd q.

Lemma ptin_not_empty z p : ptin z p -> t_empty p = false.
Proof. intros [H _]. unfold t_empty. destruct (fst p); [contradiction|reflexivity]. Qed.
Lemma tpt_in z x y : ptin z (tpt x y) <-> In (fst z) x /\ In (snd z) y.
Proof.
  unfold ptin, tpt. destruct x as [|a b]; destruct y as [|c d]; cbn; tauto.
Qed.
Lemma t_hull_l z p q : ptin z p -> ptin z (t_hull p q).
Proof.
  intros H. unfold t_hull. rewrite (ptin_not_empty _ _ H). destruct (t_empty q); [exact H|].
  destruct H. split; apply In_hull_l; assumption.
Qed.
Lemma t_hull_r z p q : ptin z q -> ptin z (t_hull p q).
Proof.
  intros H. unfold t_hull. rewrite (ptin_not_empty _ _ H). destruct (t_empty p); [exact H|].
  destruct H. split; apply In_hull_r; assumption.
Qed.
Lemma between x y k : 0 <= k <= 1 -> x <= x + k * (y - x) <= y \/ y <= x + k * (y - x) <= x.
Proof. intros. destruct (Rle_dec x y); [left|right]; nra. Qed.
Lemma seg_in x y k i : 0 <= k <= 1 -> In x i -> In y i -> In (x + k * (y - x)) i.
Proof.
  intros K Hx Hy. destruct (between x y k K); [apply (In_convex x _ y)|apply (In_convex y _ x)]; assumption.
Qed.
Lemma edge_some P Q p q : ptin p P -> ptin q Q -> edge P Q = (P, Q).
Proof. intros Hp Hq. unfold edge. rewrite (ptin_not_empty _ _ Hq), (ptin_not_empty _ _ Hp). reflexivity. Qed.
Lemma on_seg_box P Q p q z : ptin p P -> ptin q Q -> on_seg p q z -> ptin z (e_box (edge P Q)).
Proof.
  intros Hp Hq (k & K & Hx & Hy). rewrite (edge_some P Q p q Hp Hq). unfold e_box. cbn [fst snd].
  pose proof (t_hull_l p P Q Hp) as [A1 A2]. pose proof (t_hull_r q P Q Hq) as [B1 B2].
  split; rewrite ?Hx, ?Hy; apply seg_in; assumption.
Qed.
Lemma on_seg_sym p q z : on_seg p q z -> on_seg q p z.
Proof. intros (k & K & Hx & Hy). exists (1 - k). rewrite Hx, Hy. split; [lra|]. split; ring. Qed.

Section Sound.
  Variable G : garith.
  Hypothesis HG : garith_ok G.
  Let HA : arith_ok (g_ar G) := g_ar_ok G HG.

  Lemma vertical_no P Q p q : ptin p P -> ptin q Q -> is_no (is_vertical (edge P Q)) = true -> fst p <> fst q.
  Proof.
    intros Hp Hq. rewrite (edge_some P Q p q Hp Hq). unfold is_vertical. cbn [fst snd].
    destruct (is_degenerated _); [discriminate|]. destruct (intersects (fst P) (fst Q)) eqn:E; [discriminate|].
    intros _ N. apply (proj1 (intersects_false _ _) E (fst p)); [apply Hp|]. rewrite N. apply Hq.
  Qed.
  Lemma horizontal_no P Q p q : ptin p P -> ptin q Q -> is_no (is_horizontal (edge P Q)) = true -> snd p <> snd q.
  Proof.
    intros Hp Hq. rewrite (edge_some P Q p q Hp Hq). unfold is_horizontal. cbn [fst snd].
    destruct (is_degenerated _); [discriminate|]. destruct (intersects (snd P) (snd Q)) eqn:E; [discriminate|].
    intros _ N. apply (proj1 (intersects_false _ _) E (snd p)); [apply Hp|]. rewrite N. apply Hq.
  Qed.

  Lemma proj0_in P1 P2 Q1 Q2 p1 p2 q1 q2 z :
    ptin p1 P1 -> ptin p2 P2 -> ptin q1 Q1 -> ptin q2 Q2 ->
    on_seg p1 p2 z -> on_seg q1 q2 z -> det p1 p2 q1 q2 <> 0 \/ axis_parallel q1 q2 ->
    ptin z (proj0 G (edge P1 P2) (edge Q1 Q2)).
  Proof.
    intros Hp1 Hp2 Hq1 Hq2 Z1 Z2 D.
    pose proof (on_seg_box _ _ _ _ _ Hp1 Hp2 Z1) as [X1 Y1].
    pose proof (on_seg_box _ _ _ _ _ Hq1 Hq2 Z2) as [X2 Y2].
    unfold proj0.
    destruct (negb (is_no (e_degenerated (edge P1 P2))) && negb (is_no (e_degenerated (edge Q1 Q2)))).
    { apply tpt_in. split; apply In_inter; auto. }
    destruct (is_no (is_vertical (edge Q1 Q2))) eqn:V2; cbn [negb].
    2: { destruct (is_no (e_degenerated (edge P1 P2))); cbn [negb].
         2: { apply tpt_in. split; [apply In_inter|]; auto. }
         destruct (is_no (is_vertical (edge P1 P2))) eqn:V1; cbn [negb].
         2: { apply tpt_in. split; [apply In_inter; auto|apply In_ALL]. }
         destruct (is_no (is_horizontal (edge P1 P2))) eqn:H1; cbn [negb].
         2: { apply tpt_in. auto. }
         pose proof (vertical_no _ _ _ _ Hp1 Hp2 V1) as N.
         apply tpt_in. split; [exact X2|]. rewrite (edge_some _ _ _ _ Hp1 Hp2). cbn [fst snd].
         destruct Z1 as (k & K & Zx & Zy).
         replace (snd z) with (snd p1 + (snd p2 - snd p1) / (fst p2 - fst p1) * (fst z - fst p1)).
         2: { rewrite Zx, Zy. field. lra. }
         apply iadd_in; [exact HA|apply Hp1|]. apply imul_in; [exact HA| |].
         - apply (g_div_in G HG); [apply isub_in; [exact HA|apply Hp2|apply Hp1]|apply isub_in; [exact HA|apply Hp2|apply Hp1]|lra].
         - apply isub_in; [exact HA|exact X2|apply Hp1]. }
    destruct (is_no (is_horizontal (edge Q1 Q2))) eqn:H2; cbn [negb].
    2: { destruct (is_no (e_degenerated (edge P1 P2))); cbn [negb].
         2: { apply tpt_in. split; [|apply In_inter]; auto. }
         destruct (is_no (is_horizontal (edge P1 P2))) eqn:H1; cbn [negb].
         2: { apply tpt_in. split; [apply In_ALL|apply In_inter; auto]. }
         destruct (is_no (is_vertical (edge P1 P2))) eqn:V1; cbn [negb].
         2: { apply tpt_in. auto. }
         pose proof (vertical_no _ _ _ _ Hp1 Hp2 V1) as N. pose proof (horizontal_no _ _ _ _ Hp1 Hp2 H1) as N'.
         apply tpt_in. split; [|exact Y2]. rewrite (edge_some _ _ _ _ Hp1 Hp2). cbn [fst snd].
         destruct Z1 as (k & K & Zx & Zy).
         replace (fst z) with (fst p1 + (snd z - snd p1) / ((snd p2 - snd p1) / (fst p2 - fst p1))).
         2: { rewrite Zx, Zy. field. split; lra. }
         apply iadd_in; [exact HA|apply Hp1|]. apply (g_div_in G HG).
         - apply isub_in; [exact HA|exact Y2|apply Hp1].
         - apply (g_div_in G HG); [apply isub_in; [exact HA|apply Hp2|apply Hp1]|apply isub_in; [exact HA|apply Hp2|apply Hp1]|lra].
         - unfold Rdiv. apply Rmult_integral_contrapositive_currified; [lra|apply Rinv_neq_0_compat; lra]. }
    pose proof (vertical_no _ _ _ _ Hq1 Hq2 V2) as N. pose proof (horizontal_no _ _ _ _ Hq1 Hq2 H2) as N'.
    assert (D' : det p1 p2 q1 q2 <> 0) by (destruct D as [D|[D|D]]; [exact D|contradiction|contradiction]).
    rewrite (edge_some _ _ _ _ Hp1 Hp2), (edge_some _ _ _ _ Hq1 Hq2). cbn [fst snd].
    destruct Z1 as (k & K & Zx & Zy). destruct Z2 as (l & L & Zx' & Zy').
    unfold det in D'.
    set (x1 := fst p1) in *. set (y1 := snd p1) in *. set (x2 := fst p2) in *. set (y2 := snd p2) in *.
    set (x3 := fst q1) in *. set (y3 := snd q1) in *. set (x4 := fst q2) in *. set (y4 := snd q2) in *.
    assert (C : (x1 - x2) * (y3 - y4) - (y1 - y2) * (x3 - x4) <> 0).
    { intro C. apply D'. rewrite <- C. ring. }
    destruct Hp1 as [U1 W1], Hp2 as [U2 W2], Hq1 as [U3 W3], Hq2 as [U4 W4].
    assert (CI : In ((x1 - x2) * (y3 - y4) - (y1 - y2) * (x3 - x4))
        (isub (g_ar G) (imul (g_ar G) (isub (g_ar G) (fst P1) (fst P2)) (isub (g_ar G) (snd Q1) (snd Q2)))
               (imul (g_ar G) (isub (g_ar G) (snd P1) (snd P2)) (isub (g_ar G) (fst Q1) (fst Q2))))).
    { repeat first [apply isub_in|apply imul_in]; assumption. }
    apply tpt_in. split.
    - replace (fst z) with (((x1 * y2 - y1 * x2) * (x3 - x4) - (x1 - x2) * (x3 * y4 - y3 * x4)) / ((x1 - x2) * (y3 - y4) - (y1 - y2) * (x3 - x4))).
      2: { apply Rmult_eq_reg_r with (2 := C). unfold Rdiv. rewrite Rmult_assoc, Rinv_l, Rmult_1_r by exact C.
           replace (fst z * ((x1 - x2) * (y3 - y4) - (y1 - y2) * (x3 - x4)))
             with ((fst z * (y1 - y2) - snd z * (x1 - x2)) * - (x3 - x4) + (x1 - x2) * (fst z * (y3 - y4) - snd z * (x3 - x4))) by ring.
           rewrite Zx, Zy at 1. rewrite Zx', Zy'. ring. }
      apply (g_div_in G HG); [|exact CI|exact C]. repeat first [apply isub_in|apply imul_in]; assumption.
    - replace (snd z) with (((x1 * y2 - y1 * x2) * (y3 - y4) - (y1 - y2) * (x3 * y4 - y3 * x4)) / ((x1 - x2) * (y3 - y4) - (y1 - y2) * (x3 - x4))).
      2: { apply Rmult_eq_reg_r with (2 := C). unfold Rdiv. rewrite Rmult_assoc, Rinv_l, Rmult_1_r by exact C.
           replace (snd z * ((x1 - x2) * (y3 - y4) - (y1 - y2) * (x3 - x4)))
             with ((fst z * (y1 - y2) - snd z * (x1 - x2)) * - (y3 - y4) + (y1 - y2) * (fst z * (y3 - y4) - snd z * (x3 - x4))) by ring.
           rewrite Zx, Zy at 1. rewrite Zx', Zy'. ring. }
      apply (g_div_in G HG); [|exact CI|exact C]. repeat first [apply isub_in|apply imul_in]; assumption.
  Qed.

  (** Thick edges: each point that is common to a segment of the first edge and to a segment of the second edge is
      in the intersection, except when both segments are parallel and one of them is slanted. *)
  Theorem C65_intersection_partial : forall P1 P2 Q1 Q2 p1 p2 q1 q2 z,
    ptin p1 P1 -> ptin p2 P2 -> ptin q1 Q1 -> ptin q2 Q2 ->
    on_seg p1 p2 z -> on_seg q1 q2 z ->
    det p1 p2 q1 q2 <> 0 \/ (axis_parallel p1 p2 /\ axis_parallel q1 q2) ->
    ptin z (e_inter G (edge P1 P2) (edge Q1 Q2)).
  Proof.
    intros P1 P2 Q1 Q2 p1 p2 q1 q2 z Hp1 Hp2 Hq1 Hq2 Z1 Z2 D.
    pose proof (on_seg_box _ _ _ _ _ Hp1 Hp2 Z1) as [X1 Y1].
    pose proof (on_seg_box _ _ _ _ _ Hq1 Hq2 Z2) as [X2 Y2].
    assert (Z : ptin z (proj_intersection G (edge P1 P2) (edge Q1 Q2))).
    { unfold proj_intersection.
      destruct (is_no (e_degenerated (edge P1 P2)) && negb (is_no (e_degenerated (edge Q1 Q2)))).
      - apply (proj0_in Q1 Q2 P1 P2 q1 q2 p1 p2 z); auto. destruct D as [D|[D _]]; [left|right; exact D].
        unfold det in *. intro E. apply D. lra.
      - apply (proj0_in P1 P2 Q1 Q2 p1 p2 q1 q2 z); auto. tauto. }
    unfold e_inter. cbv zeta. apply tpt_in. destruct Z as [Zx Zy].
    split; apply In_inter; split; try assumption; apply In_inter; split; assumption.
  Qed.

  (** [parallel] answers YES only for parallel edges *)
  Theorem C65_parallel_yes : forall P1 P2 Q1 Q2 p1 p2 q1 q2,
    ptin p1 P1 -> ptin p2 P2 -> ptin q1 Q1 -> ptin q2 Q2 ->
    parallel G (edge P1 P2) (edge Q1 Q2) = YES -> det p1 p2 q1 q2 = 0.
  Proof.
    intros P1 P2 Q1 Q2 p1 p2 q1 q2 Hp1 Hp2 Hq1 Hq2. unfold parallel.
    assert (V : forall P Q p q, ptin p P -> ptin q Q -> is_yes (is_vertical (edge P Q)) = true -> fst p = fst q).
    { intros P Q p q Hp Hq. rewrite (edge_some P Q p q Hp Hq). unfold is_vertical, e_box. cbn [fst snd].
      pose proof (t_hull_l p P Q Hp) as [A _]. pose proof (t_hull_r q P Q Hq) as [B _].
      destruct (is_degenerated (fst (t_hull P Q))) eqn:E; [|destruct (intersects _ _); discriminate].
      intros _. destruct (fst (t_hull P Q)) as [|[a|] [b|]]; try contradiction; try discriminate.
      cbn in E. apply Reqb_true in E. cbn in A, B. lra. }
    assert (H : forall P Q p q, ptin p P -> ptin q Q -> is_yes (is_horizontal (edge P Q)) = true -> snd p = snd q).
    { intros P Q p q Hp Hq. rewrite (edge_some P Q p q Hp Hq). unfold is_horizontal, e_box. cbn [fst snd].
      pose proof (t_hull_l p P Q Hp) as [_ A]. pose proof (t_hull_r q P Q Hq) as [_ B].
      destruct (is_degenerated (snd (t_hull P Q))) eqn:E; [|destruct (intersects _ _); discriminate].
      intros _. destruct (snd (t_hull P Q)) as [|[a|] [b|]]; try contradiction; try discriminate.
      cbn in E. apply Reqb_true in E. cbn in A, B. lra. }
    destruct (is_yes (is_vertical (edge P1 P2)) && is_yes (is_vertical (edge Q1 Q2))) eqn:E1.
    { apply andb_prop in E1 as [E1 E2]. apply (V _ _ _ _ Hp1 Hp2) in E1. apply (V _ _ _ _ Hq1 Hq2) in E2.
      intros _. unfold det. rewrite E1, E2. ring. }
    destruct (is_yes (is_horizontal (edge P1 P2)) && is_yes (is_horizontal (edge Q1 Q2))) eqn:E3.
    { apply andb_prop in E3 as [E3 E4]. apply (H _ _ _ _ Hp1 Hp2) in E3. apply (H _ _ _ _ Hq1 Hq2) in E4.
      intros _. unfold det. rewrite E3, E4. ring. }
    destruct (t_unbounded _); discriminate.
  Qed.
End Sound.

(** ** Exact computations *)
Lemma xadd_pt a b : xadd (pt a) (pt b) = pt (a + b). Proof. reflexivity. Qed.
Lemma xsub_pt a b : xsub (pt a) (pt b) = pt (a - b). Proof. reflexivity. Qed.
Lemma xmul_pt a b : xmul (pt a) (pt b) = pt (a * b).
Proof.
  unfold xmul, pt, min4, max4. rewrite (Rmin_left (a * b) (a * b)), (Rmax_left (a * b) (a * b)) by lra.
  rewrite Rmin_left, Rmax_left by lra. reflexivity.
Qed.
Lemma xdiv_zero a : xdiv (pt a) (pt 0) = Emp.
Proof. unfold xdiv, pt. rewrite Reqb_refl. reflexivity. Qed.
Lemma xdiv_pt a b : b <> 0 -> xdiv (pt a) (pt b) = pt (a / b).
Proof.
  intros N. unfold xdiv, pt. rewrite (Reqb_f b 0 N). cbn [andb].
  replace (Rltb 0 b || Rltb b 0) with true.
  2: { symmetry. apply orb_true_intro. destruct (Rle_dec 0 b); [left|right]; apply Rltb_true; lra. }
  unfold min4, max4. rewrite (Rmin_left (a / b) (a / b)), (Rmax_left (a / b) (a / b)) by lra.
  rewrite Rmin_left, Rmax_left by lra. reflexivity.
Qed.
Lemma xsqr_pt a : xsqr (pt a) = pt (a * a).
Proof.
  unfold xsqr, pt. destruct (Rleb 0 a) eqn:E1; [reflexivity|]. apply Rleb_false in E1.
  rewrite (Rleb_t a 0) by lra. reflexivity.
Qed.
Lemma hull_pt a b : hull (pt a) (pt b) = I2 (Rmin a b) (Rmax a b).
Proof. reflexivity. Qed.
Lemma tvec_some p : tvec p = (pt (fst p), pt (snd p)). Proof. reflexivity. Qed.
Lemma ptin_tvec p : ptin p (tvec p). Proof. split; apply In_pt; reflexivity. Qed.
Lemma tedge_pts p q : edge (tvec p) (tvec q) = (tvec p, tvec q). Proof. reflexivity. Qed.
Lemma e_box_pts p q : e_box (tvec p, tvec q) = (I2 (Rmin (fst p) (fst q)) (Rmax (fst p) (fst q)), I2 (Rmin (snd p) (snd q)) (Rmax (snd p) (snd q))).
Proof. reflexivity. Qed.
Lemma intersects_pt a b : intersects (pt a) (pt b) = Reqb a b.
Proof.
  destruct (Reqb a b) eqn:E.
  - apply Reqb_true in E. apply intersects_spec. exists a. split; apply In_pt; auto.
  - apply Reqb_false in E. apply intersects_false. intros x H1 H2. apply In_pt in H1. apply In_pt in H2. congruence.
Qed.
Lemma itv_eqb_pt a b : itv_eqb (pt a) (pt b) = Reqb a b.
Proof. unfold itv_eqb, pt, opt_eqb. destruct (Reqb a b); reflexivity. Qed.
Lemma Reqb_minmax a b : Reqb (Rmin a b) (Rmax a b) = Reqb a b.
Proof.
  destruct (Reqb a b) eqn:E.
  - apply Reqb_true in E. subst. apply Reqb_true. rewrite Rmin_left, Rmax_left; lra.
  - apply Reqb_false in E. apply Reqb_false. unfold Rmin, Rmax. destruct (Rle_dec a b); lra.
Qed.
Lemma degenerated_pts p q : e_degenerated (tvec p, tvec q) = if v_eqb p q then YES else NO.
Proof.
  unfold e_degenerated. cbn [fst snd tvec tpt is_empty pt]. change (Itv (Some ?a) (Some ?a)) with (pt a).
  rewrite !itv_eqb_pt, !intersects_pt. unfold v_eqb. destruct (Reqb (fst p) (fst q) && Reqb (snd p) (snd q)); reflexivity.
Qed.
Lemma vertical_pts p q : is_vertical (tvec p, tvec q) = if Reqb (fst p) (fst q) then YES else NO.
Proof.
  unfold is_vertical. rewrite e_box_pts. cbn [fst snd tvec tpt is_empty pt is_degenerated I2].
  change (Itv (Some ?a) (Some ?a)) with (pt a). rewrite Reqb_minmax, intersects_pt. destruct (Reqb _ _); reflexivity.
Qed.
Lemma horizontal_pts p q : is_horizontal (tvec p, tvec q) = if Reqb (snd p) (snd q) then YES else NO.
Proof.
  unfold is_horizontal. rewrite e_box_pts. cbn [fst snd tvec tpt is_empty pt is_degenerated I2].
  change (Itv (Some ?a) (Some ?a)) with (pt a). rewrite Reqb_minmax, intersects_pt. destruct (Reqb _ _); reflexivity.
Qed.

(** ** Witnesses *)
(** two parallel slanted edges, computed exactly: the projection is empty *)
Lemma parallel_proj p1 p2 q1 q2 : v_eqb p1 p2 = false -> fst q1 <> fst q2 -> snd q1 <> snd q2 -> det p1 p2 q1 q2 = 0 ->
  proj_intersection gexact (edge (tvec p1) (tvec p2)) (edge (tvec q1) (tvec q2)) = t_none.
Proof.
  intros N1 N2 N3 D. rewrite !tedge_pts. unfold proj_intersection, proj0.
  rewrite !degenerated_pts, !vertical_pts, !horizontal_pts, N1.
  replace (v_eqb q1 q2) with false.
  2: { symmetry. unfold v_eqb. rewrite (Reqb_f _ _ N2). reflexivity. }
  rewrite (Reqb_f _ _ N2), (Reqb_f _ _ N3). cbn [is_no negb andb].
  cbn [gexact g_ar g_div isub imul exact]. rewrite !tvec_some. cbn [fst snd].
  rewrite !xsub_pt, !xmul_pt, !xsub_pt, !xmul_pt, !xsub_pt.
  replace ((fst p1 - fst p2) * (snd q1 - snd q2) - (snd p1 - snd p2) * (fst q1 - fst q2)) with 0.
  2: { rewrite <- D. unfold det. ring. }
  rewrite !xdiv_zero. reflexivity.
Qed.
(** slanted edges on the same line that have points in common: nothing is found *)
Theorem C65_intersection_refuted : exists p1 p2 q1 q2 z,
  on_seg p1 p2 z /\ on_seg q1 q2 z /\ e_inter gexact (edge (tvec p1) (tvec p2)) (edge (tvec q1) (tvec q2)) = t_none.
Proof.
  exists (0, 0), (2, 2), (1, 1), (3, 3), (3 / 2, 3 / 2). refine (conj _ (conj _ _)).
  - exists (3 / 4). cbn. lra.
  - exists (1 / 4). cbn. lra.
  - unfold e_inter. rewrite parallel_proj; [reflexivity| | | |].
    + unfold v_eqb. cbn. rewrite Reqb_f by lra. reflexivity.
    + cbn; lra.
    + cbn; lra.
    + unfold det. cbn. ring.
Qed.
(** parallel edges for which [parallel] answers NO *)
Theorem C65_parallel_no_refuted : exists p1 p2 q1 q2,
  p1 <> p2 /\ q1 <> q2 /\ det p1 p2 q1 q2 = 0 /\ parallel gexact (edge (tvec p1) (tvec p2)) (edge (tvec q1) (tvec q2)) = NO.
Proof.
  exists (0, 0), (1, 1), (0, 1), (1, 2). refine (conj _ (conj _ (conj _ _))).
  - intro E. injection E. lra.
  - intro E. injection E. lra.
  - unfold det. cbn. ring.
  - unfold parallel. rewrite parallel_proj.
    + rewrite !tedge_pts, !vertical_pts, !horizontal_pts. cbn [fst snd].
      rewrite (Reqb_f 0 1), (Reqb_f 1 2) by lra. reflexivity.
    + unfold v_eqb. cbn. rewrite Reqb_f by lra. reflexivity.
    + cbn; lra.
    + cbn; lra.
    + unfold det. cbn. ring.
Qed.
(** the hypotheses of C65_intersection_partial are met by crossing edges with thick end points *)
Example C65_ex : exists z, ptin z (e_inter gexact (edge (I2 0 1, I2 0 1) (tvec (4, 4))) (edge (tvec (0, 4)) (tvec (4, 0)))).
Proof.
  exists (2, 2).
  apply (C65_intersection_partial gexact gexact_ok _ _ _ _ (0, 0) (4, 4) (0, 4) (4, 0)).
  - split; cbn; lra.
  - apply ptin_tvec.
  - apply ptin_tvec.
  - apply ptin_tvec.
  - exists (1 / 2). cbn. lra.
  - exists (1 / 2). cbn. lra.
  - left. unfold det. cbn. lra.
Qed.

Print Assumptions C65_intersection_partial.
Print Assumptions C65_parallel_yes.
Print Assumptions C65_intersection_refuted.
Print Assumptions C65_parallel_no_refuted.
