(** * ConvexPolygon::contains: thick points (refuted) and points (proved) *)

From Coq Require Import Reals Lra Psatz Bool List Arith Lia.
Import ListNotations.
From Verif Require Import Itv Arith Tube TubeOps Concrete Geometry PropsGeom.
Open Scope R_scope.

(** ** Specification *)
(** the point at [k] between [p] and [q] *)
Definition mix (k : R) (p q : pt2) : pt2 := (fst p + k * (fst q - fst p), snd p + k * (snd q - snd p)).
(** the points of the convex polygon with vertices [vs]: the smallest convex set that contains them *)
Inductive conv (vs : list pt2) : pt2 -> Prop :=
| conv_vertex v : List.In v vs -> conv vs v
| conv_mix p q k : conv vs p -> conv vs q -> 0 <= k <= 1 -> conv vs (mix k p q).
(** twice the signed area of a triangle: positive when [a], [b], [c] turn counterclockwise *)
Definition area (a b c : pt2) : R := (fst b - fst a) * (snd c - snd a) - (snd b - snd a) * (fst c - fst a).
(** the vertices of a strictly convex polygon, counterclockwise *)
Definition ccw (vs : list pt2) : Prop :=
  (3 <= length vs)%nat /\
  forall i j k, (i < j < k)%nat -> (k < length vs)%nat -> 0 < area (nth i vs (0, 0)) (nth j vs (0, 0)) (nth k vs (0, 0)).
(** a point of the boundary *)
Definition on_boundary (vs : list pt2) (z : pt2) : Prop :=
  exists i, (i < length vs)%nat /\ on_seg (nth i vs (0, 0)) (nth (S i mod length vs) vs (0, 0)) z.

(** a half-plane that contains the vertices contains the polygon *)
Lemma conv_half vs a b c z : (forall v, List.In v vs -> 0 <= a * fst v + b * snd v + c) -> conv vs z -> 0 <= a * fst z + b * snd z + c.
Proof.
  intros H. induction 1 as [v Hv|p q k _ IHp _ IHq Hk]; [apply H, Hv|].
  unfold mix. cbn [fst snd].
  replace (a * (fst p + k * (fst q - fst p)) + b * (snd p + k * (snd q - snd p)) + c)
    with ((1 - k) * (a * fst p + b * snd p + c) + k * (a * fst q + b * snd q + c)) by ring.
  assert (0 <= (1 - k) * (a * fst p + b * snd p + c)) by (apply Rmult_le_pos; lra).
  assert (0 <= k * (a * fst q + b * snd q + c)) by (apply Rmult_le_pos; lra). lra.
Qed.
Lemma mix_eq p q z : on_seg p q z -> exists k, 0 <= k <= 1 /\ z = mix k p q.
Proof. intros (l & L & Hx & Hy). exists l. split; [exact L|]. destruct z. cbn in *. unfold mix. congruence. Qed.
Lemma conv_seg vs p q z : conv vs p -> conv vs q -> on_seg p q z -> conv vs z.
Proof. intros Hp Hq H. destruct (mix_eq p q z H) as (k & K & ->). apply conv_mix; assumption. Qed.

(** ** Intersection of an edge with the horizontal ray, exact *)
(** abscissa of the line (v w) at the ordinate y *)
Definition xat (v w : pt2) (y : R) : R := fst v + (y - snd v) * (fst w - fst v) / (snd w - snd v).
Definition rng (a b y : R) : Prop := Rmin a b <= y <= Rmax a b.
Lemma rng_pos a b y : a < b -> (rng a b y <-> a <= y <= b).
Proof. intros. unfold rng. rewrite Rmin_left, Rmax_right by lra. tauto. Qed.
Lemma rng_neg a b y : b < a -> (rng a b y <-> b <= y <= a).
Proof. intros. unfold rng. rewrite Rmin_right, Rmax_left by lra. tauto. Qed.
Lemma rng_sym a b y : rng a b y -> rng b a y.
Proof. unfold rng. rewrite Rmin_comm, Rmax_comm. auto. Qed.
Lemma div_ge0 a b : 0 <= a -> 0 < b -> 0 <= a / b.
Proof. intros. apply Rmult_le_pos; [assumption|]. apply Rlt_le, Rinv_0_lt_compat. assumption. Qed.
(** parameter of the crossing point *)
Lemma xat_seg v w y : snd v <> snd w -> rng (snd v) (snd w) y -> on_seg v w (xat v w y, y).
Proof.
  intros N H. exists ((y - snd v) / (snd w - snd v)). unfold xat. cbn [fst snd]. split; [|split; field; lra].
  destruct (Rlt_dec (snd v) (snd w)).
  - rewrite rng_pos in H by lra. split.
    + apply div_ge0; lra.
    + apply Rmult_le_reg_r with (snd w - snd v); [lra|]. unfold Rdiv. rewrite Rmult_assoc, Rinv_l by lra. lra.
  - assert (L : snd w < snd v) by lra. rewrite rng_neg in H by lra.
    replace ((y - snd v) / (snd w - snd v)) with ((snd v - y) / (snd v - snd w)) by (field; lra). split.
    + apply div_ge0; lra.
    + apply Rmult_le_reg_r with (snd v - snd w); [lra|]. unfold Rdiv. rewrite Rmult_assoc, Rinv_l by lra. lra.
Qed.
Lemma seg_rng v w z : on_seg v w z -> rng (fst v) (fst w) (fst z) /\ rng (snd v) (snd w) (snd z).
Proof.
  intros (k & K & Hx & Hy). unfold rng. rewrite Hx, Hy.
  pose proof (Rmin_l (fst v) (fst w)). pose proof (Rmin_r (fst v) (fst w)).
  pose proof (Rmax_l (fst v) (fst w)). pose proof (Rmax_r (fst v) (fst w)).
  pose proof (Rmin_l (snd v) (snd w)). pose proof (Rmin_r (snd v) (snd w)).
  pose proof (Rmax_l (snd v) (snd w)). pose proof (Rmax_r (snd v) (snd w)).
  pose proof (between (fst v) (fst w) k K). pose proof (between (snd v) (snd w) k K). split; lra.
Qed.
Lemma seg_xat v w z : snd v <> snd w -> on_seg v w z -> fst z = xat v w (snd z).
Proof. intros N (k & K & Hx & Hy). unfold xat. rewrite Hx, Hy. field. lra. Qed.

Lemma inter_pt a l u : inter (pt a) (I2 l u) = if Rleb l a && Rleb a u then pt a else Emp.
Proof.
  destruct (Rleb l a && Rleb a u) eqn:E.
  - apply andb_prop in E as [E1 E2]. apply Rleb_true in E1, E2.
    apply wf_ext; [apply wf_inter|apply wf_pt|]. intros x. rewrite In_inter, In_pt. cbn. split; [tauto|]. intros ->. auto.
  - destruct (inter (pt a) (I2 l u)) as [|c d] eqn:E2; [reflexivity|]. exfalso.
    destruct (wf_witness (inter (pt a) (I2 l u))) as (x & Hx); [apply wf_inter|rewrite E2; discriminate|].
    apply In_inter in Hx as [H1 H2]. apply In_pt in H1. subst x. cbn in H2.
    destruct H2 as [H2 H3]. rewrite (Rleb_t _ _ H2), (Rleb_t _ _ H3) in E. discriminate.
Qed.
Lemma tpt_pts x y : tpt (pt x) (pt y) = tvec (x, y). Proof. reflexivity. Qed.

(** a slanted or vertical edge *)
Lemma ray_edge v w p m : snd v <> snd w -> fst p < m ->
  e_inter gexact (tvec v, tvec w) (tvec p, tvec (m, snd p)) =
    if Rleb (Rmin (snd v) (snd w)) (snd p) && Rleb (snd p) (Rmax (snd v) (snd w))
       && (Rleb (fst p) (xat v w (snd p)) && Rleb (xat v w (snd p)) m)
    then tvec (xat v w (snd p), snd p) else t_none.
Proof.
  intros N M.
  assert (NV : v_eqb v w = false).
  { unfold v_eqb. rewrite (Reqb_f (snd v) (snd w) N). apply andb_false_r. }
  assert (NP : v_eqb p (m, snd p) = false).
  { unfold v_eqb. cbn [fst]. rewrite Reqb_f by lra. reflexivity. }
  assert (PJ : exists ox, proj_intersection gexact (tvec v, tvec w) (tvec p, tvec (m, snd p)) = tpt ox (I2 (Rmin (snd p) (snd p)) (Rmax (snd p) (snd p)))
     /\ (fst v = fst w /\ ox = I2 (Rmin (fst v) (fst w)) (Rmax (fst v) (fst w)) \/ fst v <> fst w /\ ox = pt (xat v w (snd p)))).
  { unfold proj_intersection, proj0.
    rewrite !degenerated_pts, !vertical_pts, !horizontal_pts, NV, NP, !e_box_pts. cbn [fst snd is_no negb andb].
    rewrite (Reqb_f (fst p) m) by lra. rewrite (Reqb_refl (snd p)), (Reqb_f (snd v) (snd w) N). cbn [is_no negb andb].
    destruct (Reqb (fst v) (fst w)) eqn:E; cbn [is_no negb].
    - apply Reqb_true in E. eexists. split; [reflexivity|]. left. auto.
    - apply Reqb_false in E. eexists. split; [reflexivity|]. right. split; [exact E|].
      cbn [gexact g_ar g_div isub imul iadd exact]. rewrite !tvec_some. cbn [fst snd].
      rewrite (Rmin_left (snd p) (snd p)), (Rmax_left (snd p) (snd p)) by lra.
      change (I2 (snd p) (snd p)) with (pt (snd p)).
      rewrite !xsub_pt, xdiv_pt by lra. rewrite xdiv_pt.
      2: { unfold Rdiv. apply Rmult_integral_contrapositive_currified; [lra|apply Rinv_neq_0_compat; lra]. }
      rewrite xadd_pt. f_equal. unfold xat. field. split; lra. }
  destruct PJ as (ox & PJ & HO). unfold e_inter. rewrite PJ. cbv zeta. rewrite !e_box_pts. cbn [fst snd].
  rewrite (Rmin_left (snd p) (snd p)), (Rmax_left (snd p) (snd p)) by lra. rewrite (Rmin_left (fst p) m), (Rmax_right (fst p) m) by lra.
  change (I2 (snd p) (snd p)) with (pt (snd p)).
  set (yr := Rleb (Rmin (snd v) (snd w)) (snd p) && Rleb (snd p) (Rmax (snd v) (snd w))).
  assert (YI : inter (inter (pt (snd p)) (I2 (Rmin (snd v) (snd w)) (Rmax (snd v) (snd w)))) (pt (snd p)) = if yr then pt (snd p) else Emp).
  { rewrite inter_pt. fold yr. destruct yr; [|reflexivity].
    change (pt (snd p)) with (I2 (snd p) (snd p)) at 2. rewrite inter_pt. rewrite Rleb_t by lra. reflexivity. }
  assert (OX : yr = true -> inter (inter ox (I2 (Rmin (fst v) (fst w)) (Rmax (fst v) (fst w)))) (I2 (fst p) m) =
     if Rleb (fst p) (xat v w (snd p)) && Rleb (xat v w (snd p)) m then pt (xat v w (snd p)) else Emp).
  { intros Y. apply andb_prop in Y as [Y1 Y2]. apply Rleb_true in Y1, Y2.
    assert (XR : rng (fst v) (fst w) (xat v w (snd p))).
    { apply (seg_rng v w (xat v w (snd p), snd p)). apply xat_seg; [exact N|split; assumption]. }
    destruct HO as [[E ->]|[E ->]].
    - replace (I2 (Rmin (fst v) (fst w)) (Rmax (fst v) (fst w))) with (pt (xat v w (snd p))).
      2: { unfold rng in XR. rewrite E in *. rewrite Rmin_left, Rmax_left in * by lra. unfold pt, I2. f_equal; f_equal; lra. }
      change (pt (xat v w (snd p))) with (I2 (xat v w (snd p)) (xat v w (snd p))) at 2.
      rewrite inter_pt. rewrite Rleb_t by lra. cbn [andb]. apply inter_pt.
    - rewrite inter_pt. unfold rng in XR. rewrite (Rleb_t _ _ (proj1 XR)), (Rleb_t _ _ (proj2 XR)). cbn [andb]. apply inter_pt. }
  assert (PE : fst (tpt ox (pt (snd p))) = ox /\ (ox <> Emp -> snd (tpt ox (pt (snd p))) = pt (snd p))).
  { unfold tpt. cbn. destruct ox; cbn; split; auto; contradiction. }
  assert (ON : ox <> Emp).
  { destruct HO as [[_ ->]|[_ ->]]; discriminate. }
  destruct PE as [PE1 PE2]. rewrite PE1, (PE2 ON). rewrite YI.
  destruct yr; cbn [andb].
  - rewrite (OX eq_refl). destruct (Rleb (fst p) (xat v w (snd p)) && Rleb (xat v w (snd p)) m); reflexivity.
  - unfold tpt, t_none. cbn [is_empty]. destruct (is_empty _); reflexivity.
Qed.

(** ** Thick points: wrong verdicts *)
(** a ray that starts from the thick point {px} x [yl,yu] *)
Lemma xsub_I2 l u c : xsub (I2 l u) (pt c) = I2 (l - c) (u - c). Proof. reflexivity. Qed.
Lemma xadd_I2 l u c : xadd (pt c) (I2 l u) = I2 (c + l) (c + u). Proof. reflexivity. Qed.
Lemma xdiv_I2 l u c : c <> 0 -> xdiv (I2 l u) (pt c) = I2 (Rmin (l / c) (u / c)) (Rmax (l / c) (u / c)).
Proof.
  intros N. unfold xdiv, pt, I2. rewrite (Reqb_f c 0 N). cbn [andb].
  replace (Rltb 0 c || Rltb c 0) with true.
  2: { symmetry. apply orb_true_intro. destruct (Rle_dec 0 c); [left|right]; apply Rltb_true; lra. }
  unfold min4, max4. rewrite (Rmin_left (l / c) (l / c)), (Rmax_left (l / c) (l / c)) by lra.
  rewrite (Rmin_left (u / c) (u / c)), (Rmax_left (u / c) (u / c)) by lra. reflexivity.
Qed.
(** the ray of a thick point {px} x [yl,yu] *)
Definition tray (px m yl yu : R) : tedge := ((pt px, I2 yl yu), (pt m, I2 yl yu)).
Lemma tray_facts px m yl yu : px < m -> yl < yu ->
  is_no (e_degenerated (tray px m yl yu)) = true /\ is_no (is_vertical (tray px m yl yu)) = true /\ is_no (is_horizontal (tray px m yl yu)) = false /\ e_box (tray px m yl yu) = (I2 px m, I2 yl yu).
Proof.
  intros M Y.
  assert (B : e_box (tray px m yl yu) = (I2 px m, I2 yl yu)).
  { unfold e_box, tray, t_hull. cbn. rewrite Rmin_left, Rmax_right by lra. rewrite Rmin_left, Rmax_left by lra. reflexivity. }
  refine (conj _ (conj _ (conj _ B))).
  - unfold e_degenerated, tray. cbn [fst snd]. rewrite itv_eqb_pt, intersects_pt, Reqb_f by lra. reflexivity.
  - unfold is_vertical. rewrite B. cbn [fst snd tray is_degenerated I2]. rewrite Reqb_f by lra. rewrite intersects_pt, Reqb_f by lra. reflexivity.
  - unfold is_horizontal. rewrite B. cbn [fst snd tray is_degenerated I2]. rewrite Reqb_f by lra.
    replace (intersects _ _) with true; [reflexivity|]. symmetry. apply intersects_spec. exists yl. cbn. lra.
Qed.
Lemma wf_I2 a b : a <= b -> wf (I2 a b).
Proof. intros. exact H. Qed.
(** intersection with a slanted edge; [s] is the inverse of the slope *)
Lemma tray_slanted v w px m yl yu s A B a b c d :
  fst v <> fst w -> snd v <> snd w -> px < m -> yl < yu ->
  s * (snd w - snd v) = fst w - fst v ->
  A = fst v + Rmin ((yl - snd v) * s) ((yu - snd v) * s) -> B = fst v + Rmax ((yl - snd v) * s) ((yu - snd v) * s) ->
  (forall x, (A <= x <= B /\ Rmin (fst v) (fst w) <= x <= Rmax (fst v) (fst w)) /\ px <= x <= m <-> a <= x <= b) -> a <= b ->
  (forall y, (yl <= y <= yu /\ Rmin (snd v) (snd w) <= y <= Rmax (snd v) (snd w)) /\ yl <= y <= yu <-> c <= y <= d) -> c <= d ->
  e_inter gexact (edge (tvec v) (tvec w)) (tray px m yl yu) = (I2 a b, I2 c d).
Proof.
  intros Nx Ny M Y S EA EB HX AB HY CD. rewrite tedge_pts.
  destruct (tray_facts px m yl yu M Y) as (T1 & T2 & T3 & T4).
  assert (P : proj_intersection gexact (tvec v, tvec w) (tray px m yl yu) = (I2 A B, I2 yl yu)).
  { unfold proj_intersection, proj0. rewrite T1, T2, T3, !degenerated_pts, !vertical_pts, !horizontal_pts, T4.
    unfold v_eqb. rewrite (Reqb_f _ _ Nx), (Reqb_f _ _ Ny). cbn [is_no negb andb].
    cbn [gexact g_ar g_div isub imul iadd exact]. rewrite !tvec_some. cbn [fst snd].
    rewrite !xsub_pt, xsub_I2. rewrite xdiv_pt by lra.
    rewrite xdiv_I2.
    2: { unfold Rdiv. apply Rmult_integral_contrapositive_currified; [lra|apply Rinv_neq_0_compat; lra]. }
    assert (D : forall t, t / ((snd w - snd v) / (fst w - fst v)) = t * s).
    { intros t. assert (ES : s = (fst w - fst v) / (snd w - snd v)) by (rewrite <- S; field; lra). rewrite ES. field. split; lra. }
    rewrite !D, xadd_I2, <- EA, <- EB. reflexivity. }
  unfold e_inter. rewrite P, T4, e_box_pts. cbv zeta. cbn [fst snd].
  assert (E1 : inter (inter (I2 A B) (I2 (Rmin (fst v) (fst w)) (Rmax (fst v) (fst w)))) (I2 px m) = I2 a b).
  { apply wf_ext; [apply wf_inter|apply wf_I2, AB|]. intros x. rewrite !In_inter. apply HX. }
  assert (E2 : inter (inter (I2 yl yu) (I2 (Rmin (snd v) (snd w)) (Rmax (snd v) (snd w)))) (I2 yl yu) = I2 c d).
  { apply wf_ext; [apply wf_inter|apply wf_I2, CD|]. intros x. rewrite !In_inter. apply HY. }
  rewrite E1, E2. reflexivity.
Qed.
Lemma intersects_I2 a b c d : a <= b -> c <= d -> intersects (I2 a b) (I2 c d) = Rleb a d && Rleb c b.
Proof.
  intros. destruct (Rleb a d && Rleb c b) eqn:E.
  - apply andb_prop in E as [E1 E2]. apply Rleb_true in E1, E2. apply intersects_spec. exists (Rmax a c).
    pose proof (Rmax_l a c). pose proof (Rmax_r a c). assert (Rmax a c <= b /\ Rmax a c <= d).
    { unfold Rmax. destruct (Rle_dec a c); lra. } cbn. lra.
  - apply intersects_false. intros x [H1 H2] [H3 H4]. cbn in *. rewrite !Rleb_t in E by lra. discriminate.
Qed.
Ltac mm := unfold Rmin, Rmax; cbn [fst snd] in *;
  repeat match goal with |- context [Rle_dec ?u ?v] => first [rewrite (Rle_dec_t u v) by lra | rewrite (Rle_dec_f u v) by lra] end.
(** a point that is outside the triangle: YES *)
Definition tri : polygon := [(1, 0); (2, 1); (0, 2)].
Lemma tri_e1 : e_inter gexact (edge (tvec (1, 0)) (tvec (2, 1))) (tray 0 3 0 1) = (I2 1 2, I2 0 1).
Proof. apply (tray_slanted _ _ _ _ _ _ 1 1 2); cbn [fst snd]; try lra; mm; intros; try split; intros; lra. Qed.
Lemma tri_e2 : e_inter gexact (edge (tvec (2, 1)) (tvec (0, 2))) (tray 0 3 0 1) = (I2 2 2, I2 1 1).
Proof. apply (tray_slanted _ _ _ _ _ _ (-2) 2 4); cbn [fst snd]; try lra; mm; intros; try split; intros; lra. Qed.
Lemma tri_e3 : e_inter gexact (edge (tvec (0, 2)) (tvec (1, 0))) (tray 0 3 0 1) = (I2 (1/2) 1, I2 0 1).
Proof. apply (tray_slanted _ _ _ _ _ _ (-1/2) (1/2) 1); cbn [fst snd]; try lra; mm; intros; try split; intros; lra. Qed.
Lemma tri_box : poly_box tri = (I2 0 2, I2 0 2).
Proof. unfold poly_box, tri. cbn [fold_left]. unfold t_hull. cbn. mm. reflexivity. Qed.
Lemma tri_yes : poly_contains gexact tri (pt 0, I2 0 1) = YES.
Proof.
  unfold poly_contains. rewrite tri_box.
  replace (t_empty (t_inter (pt 0, I2 0 1) (I2 0 2, I2 0 2))) with false.
  2: { symmetry. apply (ptin_not_empty (0, 0)). apply tpt_in. split; apply In_inter; cbn; lra. }
  cbn [tri t_empty fst snd is_empty pt orb].
  replace (ray_of (I2 0 2, I2 0 2) (pt 0, I2 0 1)) with (tray 0 3 0 1).
  2: { unfold ray_of, edge, tpt, tray. cbn. replace (2 + 1) with 3 by ring. reflexivity. }
  unfold tri. cbn [edges app combine map last fst snd]. rewrite tri_e3.
  cbn [ray_loop]. rewrite tri_e1, tri_e2, tri_e3. rewrite !tedge_pts, !e_box_pts. cbn [fst snd t_empty is_empty I2].
  change (Itv (Some ?a) (Some ?b)) with (I2 a b). cbn [olb oub at_bound I2].
  change (Itv (Some ?a) (Some ?b)) with (I2 a b). mm.
  change (pt ?a) with (I2 a a). repeat (rewrite intersects_I2 by lra). 
  reval. reflexivity.
Qed.
(** a point that is inside the quadrilateral: NO *)
Definition quad : polygon := [(0, 3); (0, 0); (3, 1); (2, 2)].
Lemma quad_e1 : e_inter gexact (edge (tvec (0, 3)) (tvec (0, 0))) (tray 1 4 1 2) = t_none.
Proof.
  rewrite tedge_pts. destruct (tray_facts 1 4 1 2) as (T1 & T2 & T3 & T4); [lra|lra|].
  unfold e_inter, proj_intersection, proj0. rewrite T1, T2, T3, !degenerated_pts, !vertical_pts, !horizontal_pts, T4, !e_box_pts.
  unfold v_eqb. cbn [fst snd]. rewrite (Reqb_f 3 0) by lra. rewrite andb_false_r, Reqb_refl. cbn [is_no negb andb].
  unfold tpt, t_none. cbn [fst snd is_empty I2]. change (Itv (Some ?a) (Some ?b)) with (I2 a b).
  replace (inter (inter _ _) (I2 1 4)) with Emp.
  { cbn [is_empty]. destruct (is_empty _); reflexivity. }
  apply wf_ext; [exact I|apply wf_inter|]. intros x. rewrite !In_inter. mm. cbn. lra.
Qed.
Lemma quad_e2 : e_inter gexact (edge (tvec (0, 0)) (tvec (3, 1))) (tray 1 4 1 2) = (I2 3 3, I2 1 1).
Proof. apply (tray_slanted _ _ _ _ _ _ 3 3 6); cbn [fst snd]; try lra; mm; intros; try split; intros; lra. Qed.
Lemma quad_e3 : e_inter gexact (edge (tvec (3, 1)) (tvec (2, 2))) (tray 1 4 1 2) = (I2 2 3, I2 1 2).
Proof. apply (tray_slanted _ _ _ _ _ _ (-1) 2 3); cbn [fst snd]; try lra; mm; intros; try split; intros; lra. Qed.
Lemma quad_e4 : e_inter gexact (edge (tvec (2, 2)) (tvec (0, 3))) (tray 1 4 1 2) = (I2 2 2, I2 2 2).
Proof. apply (tray_slanted _ _ _ _ _ _ (-2) 2 4); cbn [fst snd]; try lra; mm; intros; try split; intros; lra. Qed.
Lemma quad_box : poly_box quad = (I2 0 3, I2 0 3).
Proof. unfold poly_box, quad. cbn [fold_left]. unfold t_hull. cbn. mm. reflexivity. Qed.
Lemma quad_no : poly_contains gexact quad (pt 1, I2 1 2) = NO.
Proof.
  unfold poly_contains. rewrite quad_box.
  replace (t_empty (t_inter (pt 1, I2 1 2) (I2 0 3, I2 0 3))) with false.
  2: { symmetry. apply (ptin_not_empty (1, 1)). apply tpt_in. split; apply In_inter; cbn; lra. }
  cbn [quad t_empty fst snd is_empty pt orb].
  replace (ray_of (I2 0 3, I2 0 3) (pt 1, I2 1 2)) with (tray 1 4 1 2).
  2: { unfold ray_of, edge, tpt, tray. cbn. replace (3 + 1) with 4 by ring. reflexivity. }
  unfold quad. cbn [edges app combine map last fst snd]. rewrite quad_e4.
  cbn [ray_loop]. rewrite quad_e1, quad_e2, quad_e3, quad_e4. rewrite !tedge_pts, !e_box_pts. cbn [fst snd t_empty is_empty I2 t_none].
  change (Itv (Some ?a) (Some ?b)) with (I2 a b). cbn [olb oub at_bound I2].
  change (Itv (Some ?a) (Some ?b)) with (I2 a b). mm.
  change (pt ?a) with (I2 a a). repeat (rewrite intersects_I2 by lra).
  reval. reflexivity.
Qed.
Lemma tri_ccw : ccw tri.
Proof.
  split; [cbn; lia|]. intros i j k H1 H2. cbn in H2. assert (i = 0 /\ j = 1 /\ k = 2)%nat as (-> & -> & ->) by lia.
  unfold area. cbn. lra.
Qed.
Lemma quad_ccw : ccw quad.
Proof.
  split; [cbn; lia|]. intros i j k H1 H2. cbn in H2.
  assert (((i = 0 /\ j = 1 /\ k = 2) \/ (i = 0 /\ j = 1 /\ k = 3) \/ (i = 0 /\ j = 2 /\ k = 3) \/ (i = 1 /\ j = 2 /\ k = 3)))%nat
    as [(-> & -> & ->)|[(-> & -> & ->)|[(-> & -> & ->)|(-> & -> & ->)]]] by lia; unfold area; cbn; lra.
Qed.
Lemma conv_eq vs p q : conv vs p -> p = q -> conv vs q. Proof. intros H <-. exact H. Qed.

(** The verdict YES for a thick point whose points are all outside. *)
Theorem C47_yes_refuted : exists vs p, ccw vs /\ (exists z, ptin z p) /\
  poly_contains gexact vs p = YES /\ forall z, ptin z p -> ~ conv vs z.
Proof.
  exists tri, (pt 0, I2 0 1). refine (conj tri_ccw (conj _ (conj tri_yes _))).
  - exists (0, 0). split; cbn; lra.
  - intros z [Hx Hy] C. apply In_pt in Hx. cbn in Hy.
    apply (conv_half tri 2 1 (-2)) in C; [lra|].
    intros v [<-|[<-|[<-|[]]]]; cbn; lra.
Qed.
(** The verdict NO for a thick point whose points are all inside, none on the boundary. *)
Theorem C47_no_refuted : exists vs p, ccw vs /\ (exists z, ptin z p) /\
  poly_contains gexact vs p = NO /\ forall z, ptin z p -> conv vs z /\ ~ on_boundary vs z.
Proof.
  exists quad, (pt 1, I2 1 2). refine (conj quad_ccw (conj _ (conj quad_no _))).
  - exists (1, 1). split; cbn; lra.
  - intros z [Hx Hy]. apply In_pt in Hx. cbn in Hy. split.
    + apply (conv_seg quad (1, 1 / 3) (1, 5 / 2)).
      * apply (conv_seg quad (0, 0) (3, 1)); [apply conv_vertex; cbn; tauto|apply conv_vertex; cbn; tauto|].
        exists (1 / 3). cbn. lra.
      * apply (conv_seg quad (2, 2) (0, 3)); [apply conv_vertex; cbn; tauto|apply conv_vertex; cbn; tauto|].
        exists (1 / 2). cbn. lra.
      * exists ((snd z - 1 / 3) / (13 / 6)). cbn. lra.
    + intros (i & Hi & k & K & Zx & Zy). cbn in Hi.
      assert ((i = 0 \/ i = 1 \/ i = 2 \/ i = 3)%nat) as [->|[->|[->| ->]]] by lia; cbn in Zx, Zy; lra.
Qed.

Print Assumptions C47_yes_refuted.
Print Assumptions C47_no_refuted.
