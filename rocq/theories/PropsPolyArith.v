(** * Operations on convex polygons: the image of the polygon is enclosed *)

From Coq Require Import Reals Lra Psatz Bool List Arith Lia.
Import ListNotations.
From Verif Require Import Itv Arith Tube TubeOps Concrete Geometry PropsGeom PropsGeom2 PropsGeom3 PropsHull PolyArith.
Open Scope R_scope.

(** ** Specification *)
(** the smallest convex set that contains the points of [S] *)
Inductive hull_of (S : pt2 -> Prop) : pt2 -> Prop :=
| hull_base z : S z -> hull_of S z
| hull_mix p q k : hull_of S p -> hull_of S q -> 0 <= k <= 1 -> hull_of S (mix k p q).
(** a point, or a bounded box with a side of at least 1e-10 *)
Definition solid (p : tpoint) : Prop :=
  (exists z, p = tvec z) \/
  exists a b c d, p = (I2 a b, I2 c d) /\ a <= b /\ c <= d /\ (1 / 10 ^ 10 <= b - a \/ 1 / 10 ^ 10 <= d - c).
(** a bounded box that is not empty *)
Definition compact (p : tpoint) : Prop := exists a b c d, p = (I2 a b, I2 c d) /\ a <= b /\ c <= d.
(** sum, opposite, image by a matrix *)
Definition vadd (p q : pt2) : pt2 := (fst p + fst q, snd p + snd q).
Definition vneg (p : pt2) : pt2 := (- fst p, - snd p).
Definition vmul (a b c d : R) (p : pt2) : pt2 := (a * fst p + b * snd p, c * fst p + d * snd p).
(** rotation of angle [t] around [c] *)
Definition vrot (t : R) (c p : pt2) : pt2 :=
  (fst c + cos t * (fst p - fst c) - sin t * (snd p - snd c), snd c + sin t * (fst p - fst c) + cos t * (snd p - snd c)).

(** ** Convex sets *)
Definition convex (S : pt2 -> Prop) : Prop := forall p q k, S p -> S q -> 0 <= k <= 1 -> S (mix k p q).
Lemma hull_min (S T : pt2 -> Prop) : convex T -> (forall z, S z -> T z) -> forall z, hull_of S z -> T z.
Proof. intros C H z. induction 1; [apply H; assumption|apply C; assumption]. Qed.
Lemma hull_convex (S : pt2 -> Prop) : convex (hull_of S).
Proof. intros p q k. apply hull_mix. Qed.
Lemma conv_convex vs : convex (conv vs).
Proof. intros p q k. apply conv_mix. Qed.
Lemma conv_min vs (T : pt2 -> Prop) : convex T -> (forall z, List.In z vs -> T z) -> forall z, conv vs z -> T z.
Proof. intros C H z. induction 1; [apply H; assumption|apply C; assumption]. Qed.
Lemma conv_hull_of vs z : conv vs z <-> hull_of (fun v => List.In v vs) z.
Proof.
  split.
  - apply conv_min; [apply hull_convex|]. intros v Hv. apply (hull_base (fun v => List.In v vs)), Hv.
  - apply hull_min; [apply conv_convex|]. intros v. apply conv_vertex.
Qed.
Lemma In_mix_itv x y k i : In x i -> In y i -> 0 <= k <= 1 -> In (x + k * (y - x)) i.
Proof.
  destruct i as [|[a|] [b|]]; cbn; try tauto; intros; try (assert (0 <= k * (y - a)) by nra);
    try (assert (a <= x + k * (y - x)) by nra); try (assert (x + k * (y - x) <= b) by nra); tauto.
Qed.
Lemma ptin_convex p : convex (fun z => ptin z p).
Proof. intros u v k [A B] [C D] K. split; cbn; apply In_mix_itv; assumption. Qed.

(** ** The vertices of a thick point *)
Lemma seg_param a b x : a <= x <= b -> exists k, 0 <= k <= 1 /\ x = a + k * (b - a).
Proof.
  intros H. destruct (Req_dec a b) as [E|N].
  - exists 0. lra.
  - exists ((x - a) / (b - a)). assert (0 < b - a) by lra. split; [|field; lra]. split.
    + apply div_ge0; lra.
    + apply (Rmult_le_reg_r (b - a)); [lra|]. unfold Rdiv. rewrite Rmult_assoc, Rinv_l; lra.
Qed.
Lemma conv_corners vs a b c d : a <= b -> c <= d -> List.In (a, c) vs -> List.In (a, d) vs -> List.In (b, c) vs -> List.In (b, d) vs ->
  forall z, ptin z (I2 a b, I2 c d) -> conv vs z.
Proof.
  intros Hab Hcd H1 H2 H3 H4 [x y] [Hx Hy]. cbn in Hx, Hy.
  destruct (seg_param a b x Hx) as (k & K & Ex). destruct (seg_param c d y Hy) as (l & L & Ey).
  assert (V : forall e, List.In (e, c) vs -> List.In (e, d) vs -> conv vs (e, y)).
  { intros e I1 I2. apply (conv_seg vs (e, c) (e, d)); try (apply conv_vertex; assumption). exists l. cbn. lra. }
  apply (conv_seg vs (a, y) (b, y)); try (apply V; assumption). exists k. cbn. lra.
Qed.
Lemma bounds_pts_conv a b c d : a <= b -> c <= d -> forall z, conv (bounds_pts (I2 a b, I2 c d)) z <-> ptin z (I2 a b, I2 c d).
Proof.
  intros Hab Hcd. cbn [bounds_pts I2]. set (l := [(a, c); (a, d); (b, c); (b, d)]).
  destruct (remove_identical_spec l) as [_ E]. intros z. split.
  - apply (conv_min _ _ (ptin_convex _)). intros v Hv. apply E in Hv.
    destruct Hv as [<-|[<-|[<-|[<-|[]]]]]; split; cbn; lra.
  - apply conv_corners; auto; apply E; cbn; tauto.
Qed.
Lemma pow10 : 1 / 10 ^ 10 = / 10000000000.
Proof. lra. Qed.
Lemma thin_wide a b c d : 1 / 10 ^ 10 <= b - a \/ 1 / 10 ^ 10 <= d - c -> thin (I2 a b, I2 c d) = false.
Proof.
  intros H. rewrite pow10 in H. unfold thin. cbn [fst snd thin_itv I2].
  destruct H as [H|H]; rewrite (Rltb_f _ _ H); [reflexivity|apply andb_false_r].
Qed.
Lemma thin_point z : thin (tvec z) = true.
Proof. unfold thin. cbn. rewrite !Rltb_t by lra. reflexivity. Qed.
Lemma far_point c x : far_side c (pt x) = x.
Proof. cbn. destruct (Rltb c x); reflexivity. Qed.
Lemma kept_point c z : kept_pts c (tvec z) = [z].
Proof. unfold kept_pts. rewrite thin_point, tvec_some. cbn [fst snd]. rewrite !far_point. destruct z; reflexivity. Qed.
Lemma conv_one v z : conv [v] z <-> z = v.
Proof.
  split.
  - intros H. revert z H. apply conv_min; [|intros z [->|[]]; reflexivity].
    intros p q k -> -> _. unfold mix. destruct v as [x y]; cbn [fst snd]. f_equal; ring.
  - intros ->. apply conv_vertex. left. reflexivity.
Qed.
Lemma ptin_tvec_iff z v : ptin z (tvec v) <-> z = v.
Proof.
  rewrite tvec_some. unfold ptin. cbn [fst snd]. rewrite !In_pt. destruct z, v; cbn. split; [intros [-> ->]|intros [= -> ->]]; auto.
Qed.
Lemma kept_solid c p : solid p -> forall z, conv (kept_pts c p) z <-> ptin z p.
Proof.
  intros [(v & ->)|(a & b & e & d & -> & H1 & H2 & H3)] z.
  - rewrite kept_point, conv_one, ptin_tvec_iff. reflexivity.
  - unfold kept_pts. rewrite (thin_wide a b e d H3). apply bounds_pts_conv; assumption.
Qed.
Lemma solid_compact p : solid p -> compact p.
Proof.
  intros [(v & ->)|(a & b & e & d & -> & H1 & H2 & H3)].
  - exists (fst v), (fst v), (snd v), (snd v). rewrite tvec_some. repeat split; lra.
  - exists a, b, e, d. auto.
Qed.
Lemma kept_compact c p : compact p -> forall z, List.In z (kept_pts c p) -> ptin z p.
Proof.
  intros (a & b & e & d & -> & H1 & H2) z. unfold kept_pts. destruct (thin _).
  - intros [<-|[]]. split; cbn [fst snd]; unfold far_side, I2; destruct (Rltb _ _); cbn; lra.
  - intros H. apply bounds_pts_conv; auto. apply conv_vertex, H.
Qed.
Lemma compact_some l : Forall compact l -> existsb t_empty l = false.
Proof.
  induction 1 as [|p l (a & b & c & d & -> & _) _ IH]; [reflexivity|]. cbn. exact IH.
Qed.

(** ** C82: constructors *)
(** The polygon made of boxes that are points, or are not tiny, is the convex hull of these boxes. *)
Theorem C82_thick_partial : forall mid l, Forall solid l ->
  forall z, conv (poly_of_thick gexact mid l) z <-> hull_of (fun w => exists p, List.In p l /\ ptin w p) z.
Proof.
  intros mid l H z. unfold poly_of_thick.
  rewrite compact_some by (eapply Forall_impl; [apply solid_compact|exact H]).
  destruct (C66_hull (flat_map (kept_pts (center mid l)) l)) as [_ E]. rewrite (E z). rewrite Forall_forall in H. split.
  - apply conv_min; [apply hull_convex|]. intros v Hv. apply in_flat_map in Hv as (p & Hp & Hv).
    apply hull_base. exists p. split; [exact Hp|]. apply (kept_solid (center mid l) p (H p Hp)), conv_vertex, Hv.
  - apply hull_min; [apply conv_convex|]. intros v (p & Hp & Hv).
    apply (kept_solid (center mid l) p (H p Hp)) in Hv. revert v Hv. apply conv_incl.
    intros v Hv. apply conv_vertex, in_flat_map. exists p. auto.
Qed.
(** In any case, nothing else than the convex hull of the boxes is kept. *)
Theorem C82_thick_inside : forall mid l, Forall compact l ->
  forall z, conv (poly_of_thick gexact mid l) z -> hull_of (fun w => exists p, List.In p l /\ ptin w p) z.
Proof.
  intros mid l H z. unfold poly_of_thick. rewrite compact_some by exact H.
  destruct (C66_hull (flat_map (kept_pts (center mid l)) l)) as [_ E]. rewrite (E z). rewrite Forall_forall in H.
  apply conv_min; [apply hull_convex|]. intros v Hv. apply in_flat_map in Hv as (p & Hp & Hv).
  apply hull_base. exists p. split; [exact Hp|]. apply (kept_compact _ p (H p Hp) v Hv).
Qed.
(** the exact middle *)
Definition xmid (i : itv) : R := match i with Itv (Some a) (Some b) => (a + b) / 2 | _ => 0 end.
(** A tiny box is replaced by one of its corners. *)
Theorem C82_thick_refuted : exists l w, Forall compact l /\ (exists p, List.In p l /\ ptin w p) /\
  ~ conv (poly_of_thick gexact xmid l) w.
Proof.
  exists [(I2 0 (/ 100000000000), pt 0)], (/ 100000000000, 0). refine (conj _ (conj _ _)).
  - constructor; [|constructor]. exists 0, (/ 100000000000), 0, 0. repeat split; lra.
  - eexists. split; [left; reflexivity|]. split; cbn; lra.
  - unfold poly_of_thick. cbn [existsb t_empty fst is_empty I2 orb flat_map app]. unfold kept_pts, thin. cbn [fst snd thin_itv I2 pt].
    rewrite !Rltb_t by lra. cbn [andb app]. destruct (C66_hull [(far_side (fst (center xmid [(Itv (Some 0) (Some (/ 100000000000)), Itv (Some 0) (Some 0))]))
       (Itv (Some 0) (Some (/ 100000000000))), far_side (snd (center xmid [(Itv (Some 0) (Some (/ 100000000000)), Itv (Some 0) (Some 0))]))
       (Itv (Some 0) (Some 0)))]) as [_ E]. rewrite (E _), conv_one. unfold center. cbn [fold_left fst snd xmid length INR far_side].
    rewrite Rltb_f by lra. intros K. injection K as K. lra.
Qed.
(** The polygon of a box is the box. *)
Theorem C82_box : forall x, compact x -> forall z, conv (poly_of_box gexact x) z <-> ptin z x.
Proof.
  intros x (a & b & c & d & -> & H1 & H2) z. unfold poly_of_box. cbn [box_corners I2].
  destruct (C66_hull [(a, c); (b, c); (b, d); (a, d)]) as [_ E]. rewrite (E z). split.
  - apply (conv_min _ _ (ptin_convex _)). intros v [<-|[<-|[<-|[<-|[]]]]]; split; cbn; lra.
  - apply conv_corners; auto; cbn; tauto.
Qed.

(** ** C82: sums *)
Lemma ptin_tpt z x y : ptin z (tpt x y) <-> In (fst z) x /\ In (snd z) y.
Proof. unfold ptin, tpt. destruct x, y; cbn; tauto. Qed.
Lemma hull_S (S T : pt2 -> Prop) : (forall z, S z -> T z) -> forall z, hull_of S z -> hull_of T z.
Proof. intros H. apply hull_min; [apply hull_convex|]. intros z Hz. apply hull_base, H, Hz. Qed.
(** an affine map of a polygon: it is enough to see the vertices *)
Lemma conv_image (f : pt2 -> pt2) T : (forall p q k, f (mix k p q) = mix k (f p) (f q)) -> convex T ->
  forall vs, (forall v, List.In v vs -> T (f v)) -> forall z, conv vs z -> T (f z).
Proof. intros L C vs H. apply conv_min; [|exact H]. intros p q k Hp Hq K. rewrite L. apply C; assumption. Qed.
Lemma pair_eq (a b c d : R) : a = c -> b = d -> (a, b) = (c, d).
Proof. intros -> ->. reflexivity. Qed.
Ltac vec_tac := intros; unfold vadd, vneg, vmul, vrot, mix; cbn [fst snd]; apply pair_eq; ring.
(** The sum of a polygon and a box encloses the sums of their points, for all inclusion-correct operators. *)
Theorem C82_add_partial : forall A mid v x, arith_ok A -> Forall solid (map (fun p => t_add A (tvec p) v) x) ->
  forall z w, conv x z -> ptin w v -> conv (poly_add A gexact mid v x) (vadd z w).
Proof.
  intros A mid v x OK H z w Hz Hw.
  apply (conv_image (fun z => vadd z w) (conv (poly_add A gexact mid v x))) with (vs := x); [vec_tac|apply conv_convex| |exact Hz].
  intros p Hp. apply (C82_thick_partial mid _ H), hull_base. exists (t_add A (tvec p) v). split.
  - apply (in_map (fun p => t_add A (tvec p) v)), Hp.
  - apply ptin_tpt. destruct (ptin_tvec p), Hw. split; apply iadd_in; assumption.
Qed.
Lemma add_exact p a b c d : t_add exact (tvec p) (I2 a b, I2 c d) = (I2 (fst p + a) (fst p + b), I2 (snd p + c) (snd p + d)).
Proof. reflexivity. Qed.
Lemma add_exact_solid v x : solid v -> Forall solid (map (fun p => t_add exact (tvec p) v) x).
Proof.
  intros H. apply Forall_forall. intros q Hq. apply in_map_iff in Hq as (p & <- & _).
  destruct H as [(v0 & ->)|(a & b & c & d & -> & H1 & H2 & H3)].
  - left. exists (vadd p v0). reflexivity.
  - right. rewrite add_exact. do 4 eexists. split; [reflexivity|]. lra.
Qed.
Lemma t_add_exact_in p v z : compact v -> ptin z (t_add exact (tvec p) v) -> ptin (fst z - fst p, snd z - snd p) v.
Proof. intros (a & b & c & d & -> & H1 & H2). rewrite add_exact. unfold ptin. cbn. lra. Qed.
(** With exact operators it is the set of these sums. *)
Theorem C82_add_exact_partial : forall mid v x, solid v ->
  forall z, conv (poly_add exact gexact mid v x) z <-> exists u w, conv x u /\ ptin w v /\ z = vadd u w.
Proof.
  intros mid v x H z. pose proof (add_exact_solid v x H) as HS. split.
  - intros Hz. apply (C82_thick_partial mid _ HS) in Hz. revert z Hz. apply hull_min.
    + intros p q k (u & w & U & W & ->) (u' & w' & U' & W' & ->) K.
      exists (mix k u u'), (mix k w w'). refine (conj (conv_mix _ _ _ _ U U' K) (conj _ _)); [|vec_tac].
      exact (ptin_convex v w w' k W W' K).
    + intros z (p & Hp & Hz). apply in_map_iff in Hp as (u & <- & Hu).
      apply (t_add_exact_in u v z (solid_compact v H)) in Hz. exists u. eexists. refine (conj (conv_vertex _ _ Hu) (conj Hz _)).
      destruct z. unfold vadd. cbn. apply pair_eq; ring.
  - intros (u & w & U & W & ->). apply C82_add_partial; auto using exact_ok.
Qed.
(** Operators that round outwards: a translation by a point loses all the points of the polygon. *)
Definition rounded : arith := {| iadd := fun X Y => xadd (xadd X Y) (I2 (- / 1000000000000) (/ 1000000000000));
  isub := xsub; imul := xmul; ineg := xneg |}.
Lemma rounded_ok : arith_ok rounded.
Proof.
  pose proof exact_ok as E. constructor; try apply E; cbn [iadd rounded].
  - intros x y X Y Hx Hy. replace (x + y) with ((x + y) + 0) by ring. apply (iadd_in exact E); [apply (iadd_in exact E); assumption|]. cbn. lra.
  - intros X Y HX HY. apply (iadd_wf exact E); [apply (iadd_wf exact E); assumption|]. cbn. lra.
  - intros X Y H. rewrite (iadd_emp exact E X Y H : xadd X Y = Emp). reflexivity.
Qed.
Theorem C82_rounding_refuted : exists A v x, arith_ok A /\ (exists z, v = tvec z) /\ x <> [] /\
  forall z w, conv x z -> ptin w v -> ~ conv (poly_add A gexact xmid v x) (vadd z w).
Proof.
  exists rounded, (tvec (0, 0)), [(0, 0)]. refine (conj rounded_ok (conj (ex_intro _ _ eq_refl) (conj _ _))); [discriminate|].
  intros z w Hz Hw. apply conv_one in Hz as ->. apply ptin_tvec_iff in Hw as ->. unfold poly_add, poly_of_thick.
  set (e := / 1000000000000). assert (HE : 0 < e) by (unfold e; lra).
  assert (T : t_add rounded (tvec (0, 0)) (tvec (0, 0)) = (I2 (0 + 0 + - e) (0 + 0 + e), I2 (0 + 0 + - e) (0 + 0 + e))) by reflexivity.
  cbn [map]. rewrite T. cbn [existsb t_empty fst is_empty I2 orb flat_map]. unfold kept_pts, thin. cbn [fst snd thin_itv I2].
  rewrite !Rltb_t by (unfold e; lra). cbn [andb app].
  unfold center. cbn [fold_left fst snd xmid length INR].
  match goal with |- ~ conv (convex_hull gexact ?l) _ => destruct (C66_hull l) as [_ E]; rewrite (E _), conv_one end.
  unfold far_side, xmid, I2. cbn [fst snd]. rewrite !Rltb_f by lra. unfold vadd. cbn [fst snd]. intros K. injection K as K. lra.
Qed.

(** ** C82: opposites and differences *)
Theorem C82_neg : forall x z, conv (poly_neg x) z <-> conv x (vneg z).
Proof.
  intros x z. split; intros H.
  - apply (conv_image vneg (conv x)) with (vs := poly_neg x); [vec_tac|apply conv_convex| |exact H].
    intros v Hv. apply in_map_iff in Hv as (u & <- & Hu). unfold vneg. cbn. rewrite !Ropp_involutive. destruct u; apply conv_vertex, Hu.
  - assert (E : z = vneg (vneg z)) by (unfold vneg; destruct z; cbn; rewrite !Ropp_involutive; reflexivity).
    rewrite E. apply (conv_image vneg (conv (poly_neg x))) with (vs := x); [vec_tac|apply conv_convex| |exact H].
    intros v Hv. apply conv_vertex. apply (in_map (fun p => (- fst p, - snd p))), Hv.
Qed.
(** The vertices are still in the order that is expected of a convex polygon. *)
Theorem C82_neg_order : forall x, ccw x -> ccw (poly_neg x).
Proof.
  intros x [L H]. unfold poly_neg. split; [rewrite map_length; exact L|]. intros i j k Hi Hk. rewrite map_length in Hk.
  set (f := fun p : pt2 => (- fst p, - snd p) : pt2). change (map _ x) with (map f x).
  assert (E : forall m, (m < length x)%nat -> nth m (map f x) (0, 0) = f (nth m x (0, 0))).
  { intros m Hm. rewrite (nth_indep _ (0, 0) (f (0, 0))) by (rewrite map_length; exact Hm). apply map_nth. }
  rewrite (E i), (E j), (E k) by (unfold polygon, pt2 in *; lia). specialize (H i j k Hi Hk).
  assert (EA : forall a b c, area (f a) (f b) (f c) = area a b c) by (intros; unfold area, f; cbn [fst snd]; ring). rewrite EA. exact H.
Qed.
Lemma t_neg_in A w v : arith_ok A -> ptin w v -> ptin (vneg w) (t_neg A v).
Proof. intros OK [H1 H2]. split; cbn; apply ineg_in; assumption. Qed.
Theorem C82_sub_partial : forall A mid v x, arith_ok A -> Forall solid (map (fun p => t_add A (tvec p) (t_neg A v)) x) ->
  forall z w, conv x z -> ptin w v -> conv (poly_sub A gexact mid x v) (fst z - fst w, snd z - snd w).
Proof. intros A mid v x OK H z w Hz Hw. apply (C82_add_partial A mid (t_neg A v) x OK H z (vneg w) Hz), t_neg_in; assumption. Qed.
Lemma solid_neg v : solid v -> solid (t_neg exact v).
Proof.
  intros [(v0 & ->)|(a & b & c & d & -> & H1 & H2 & H3)].
  - left. exists (vneg v0). reflexivity.
  - right. exists (- b), (- a), (- d), (- c). split; [reflexivity|]. lra.
Qed.
Lemma neg_in v w : ptin w (t_neg exact v) <-> ptin (vneg w) v.
Proof. destruct v as [[|[a|] [b|]] [|[c|] [d|]]]; unfold ptin; cbn; split; intros [H1 H2]; split; tauto || lra. Qed.
Theorem C82_sub_exact_partial : forall mid v x, solid v ->
  forall z, conv (poly_sub exact gexact mid x v) z <-> exists u w, conv x u /\ ptin w v /\ z = (fst u - fst w, snd u - snd w).
Proof.
  intros mid v x H z. unfold poly_sub. rewrite (C82_add_exact_partial mid (t_neg exact v) x (solid_neg v H) z). split; intros (u & w & U & W & ->).
  - exists u, (vneg w). apply neg_in in W. refine (conj U (conj W _)). vec_tac.
  - exists u, (vneg w). refine (conj U (conj _ _)); [|vec_tac]. apply neg_in. destruct w. unfold vneg. cbn. rewrite !Ropp_involutive. exact W.
Qed.
Theorem C82_box_sub_partial : forall A mid v x, arith_ok A -> Forall solid (map (fun p => t_add A (tvec p) v) (poly_neg x)) ->
  forall z w, conv x z -> ptin w v -> conv (box_sub_poly A gexact mid v x) (fst w - fst z, snd w - snd z).
Proof.
  intros A mid v x OK H z w Hz Hw. replace (fst w - fst z, snd w - snd z) with (vadd (vneg z) w) by (unfold vadd, vneg; cbn; apply pair_eq; ring).
  apply C82_add_partial; auto. apply C82_neg. destruct z. unfold vneg. cbn. rewrite !Ropp_involutive. exact Hz.
Qed.

(** ** C82: product with a matrix *)
Lemma dot2_in A (OK : arith_ok A) m p a b : In a (m 0%nat) -> In b (m 1%nat) -> In (a * fst p + b * snd p) (dot A 2 m (t_nth (tvec p))).
Proof.
  intros Ha Hb. cbn [dot t_nth tvec tpt fst snd is_empty pt].
  replace (a * fst p + b * snd p) with (0 + a * fst p + b * snd p) by ring.
  apply (iadd_in A OK); [apply (iadd_in A OK); [apply In_pt; reflexivity|]|]; apply (imul_in A OK); auto; cbn; lra.
Qed.
Theorem C82_mul_partial : forall A mid m x, arith_ok A ->
  Forall solid (map (fun p => tpt (dot A 2 (m 0%nat) (t_nth (tvec p))) (dot A 2 (m 1%nat) (t_nth (tvec p)))) x) ->
  forall z a b c d, conv x z -> In a (m 0 0)%nat -> In b (m 0 1)%nat -> In c (m 1 0)%nat -> In d (m 1 1)%nat ->
  conv (poly_mul A gexact mid m x) (vmul a b c d z).
Proof.
  intros A mid m x OK H z a b c d Hz Ha Hb Hc Hd.
  apply (conv_image (vmul a b c d) (conv (poly_mul A gexact mid m x))) with (vs := x); [vec_tac|apply conv_convex| |exact Hz].
  intros p Hp. apply (C82_thick_partial mid _ H), hull_base. eexists. split.
  - apply (in_map (fun p => tpt (dot A 2 (m 0%nat) (t_nth (tvec p))) (dot A 2 (m 1%nat) (t_nth (tvec p))))), Hp.
  - apply ptin_tpt. split; apply dot2_in; assumption.
Qed.
(** For a matrix of numbers and exact operators it is the image of the polygon. *)
Theorem C82_mul_exact : forall mid m x a b c d, m 0%nat 0%nat = pt a -> m 0%nat 1%nat = pt b -> m 1%nat 0%nat = pt c -> m 1%nat 1%nat = pt d ->
  forall z, conv (poly_mul exact gexact mid m x) z <-> exists u, conv x u /\ z = vmul a b c d u.
Proof.
  intros mid m x a b c d Ea Eb Ec Ed.
  assert (E : map (fun p => tpt (dot exact 2 (m 0%nat) (t_nth (tvec p))) (dot exact 2 (m 1%nat) (t_nth (tvec p)))) x
            = map (fun p => tvec (vmul a b c d p)) x).
  { apply map_ext. intros p. cbn [dot t_nth tvec tpt fst snd is_empty pt]. rewrite Ea, Eb, Ec, Ed.
    change (Itv (Some (fst p)) (Some (fst p))) with (pt (fst p)). change (Itv (Some (snd p)) (Some (snd p))) with (pt (snd p)).
    cbn [exact iadd imul]. rewrite !xmul_pt. cbn [xadd pt oadd tpt is_empty]. rewrite !Rplus_0_l. reflexivity. }
  assert (HS : Forall solid (map (fun p => tvec (vmul a b c d p)) x)).
  { apply Forall_forall. intros q Hq. apply in_map_iff in Hq as (p & <- & _). left. eexists. reflexivity. }
  intros z. unfold poly_mul. rewrite E, (C82_thick_partial mid _ HS). split.
  - revert z. apply hull_min.
    + intros p q k (u & U & ->) (u' & U' & ->) K. exists (mix k u u'). split; [apply conv_mix; assumption|]. vec_tac.
    + intros z (p & Hp & Hz). apply in_map_iff in Hp as (u & <- & Hu). apply ptin_tvec_iff in Hz as ->. exists u. split; [apply conv_vertex, Hu|reflexivity].
  - intros (u & Hu & ->). revert u Hu. apply (conv_image (vmul a b c d)); [vec_tac|apply hull_convex|].
    intros v Hv. apply hull_base. exists (tvec (vmul a b c d v)). split; [apply (in_map (fun p => tvec (vmul a b c d p))), Hv|apply ptin_tvec].
Qed.

(** ** C82: union *)
Lemma solid_tvecs l : Forall solid (map tvec l).
Proof. apply Forall_forall. intros q Hq. apply in_map_iff in Hq as (p & <- & _). left. eexists. reflexivity. Qed.
Lemma thick_points mid l z : conv (poly_of_thick gexact mid (map tvec l)) z <-> conv l z.
Proof.
  rewrite (C82_thick_partial mid _ (solid_tvecs l)), conv_hull_of. split; apply hull_S; clear z; intros z.
  - intros (p & Hp & Hz). apply in_map_iff in Hp as (v & <- & Hv). apply ptin_tvec_iff in Hz as ->. exact Hv.
  - intros Hz. exists (tvec z). split; [apply in_map, Hz|apply ptin_tvec].
Qed.
(** The union is the smallest convex set that contains both polygons. *)
Theorem C82_union : forall mid p1 p2 z, conv (poly_union gexact mid p1 p2) z <-> hull_of (fun w => conv p1 w \/ conv p2 w) z.
Proof.
  intros mid p1 p2 z. unfold poly_union. rewrite <- map_app, thick_points. split.
  - apply conv_min; [apply hull_convex|]. intros v Hv. apply hull_base. apply in_app_or in Hv as [H|H]; [left|right]; apply conv_vertex, H.
  - apply hull_min; [apply conv_convex|]. intros w [H|H]; revert w H; apply conv_incl; intros v Hv; apply conv_vertex, in_or_app; tauto.
Qed.
Theorem C82_box_union : forall mid x p z, compact x -> conv (box_union gexact mid x p) z <-> hull_of (fun w => ptin w x \/ conv p w) z.
Proof.
  intros mid x p z C. unfold box_union. rewrite C82_union.
  split; apply hull_S; clear z; intros z [H|H]; (right; exact H) || (left; apply (C82_box x C); exact H) || (right; apply (C82_box x C); exact H) || (left; exact H) || idtac.
Qed.

(** ** C82: rotation *)
Lemma dot3_in A (OK : arith_ok A) (a b : nat -> itv) (u v : nat -> R) : (forall k, (k < 3)%nat -> In (u k) (a k)) -> (forall k, (k < 3)%nat -> In (v k) (b k)) ->
  In (0 + u 0%nat * v 0%nat + u 1%nat * v 1%nat + u 2%nat * v 2%nat) (dot A 3 a b).
Proof.
  intros H K. cbn [dot]. repeat (apply (iadd_in A OK); [|apply (imul_in A OK); [apply H|apply K]; lia]). apply In_pt. reflexivity.
Qed.
Definition rtra (c : pt2) (i j : nat) : R :=
  match i, j with 0%nat, 2%nat => fst c | 1%nat, 2%nat => snd c | 0%nat, 0%nat | 1%nat, 1%nat | 2%nat, 2%nat => 1 | _, _ => 0 end.
Definition rrot (t : R) (i j : nat) : R :=
  match i, j with 0%nat, 0%nat => cos t | 0%nat, 1%nat => - sin t | 1%nat, 0%nat => sin t | 1%nat, 1%nat => cos t | 2%nat, 2%nat => 1 | _, _ => 0 end.
Definition rmul (a b : nat -> nat -> R) (i j : nat) : R := 0 + a i 0%nat * b 0%nat j + a i 1%nat * b 1%nat j + a i 2%nat * b 2%nat j.
Lemma mat_mul3_in A (OK : arith_ok A) a b ra rb : (forall i j, (i < 3)%nat -> (j < 3)%nat -> In (ra i j) (a i j)) ->
  (forall i j, (i < 3)%nat -> (j < 3)%nat -> In (rb i j) (b i j)) ->
  forall i j, (i < 3)%nat -> (j < 3)%nat -> In (rmul ra rb i j) (mat_mul3 A a b i j).
Proof.
  intros H K i j Hi Hj. unfold mat_mul3, rmul. apply (dot3_in A OK (a i) (fun k => b k j) (ra i) (fun k => rb k j)); intros k Hk; auto.
Qed.
Theorem C82_rotate_partial : forall A mid icos isin theta c x, arith_ok A ->
  (forall t i, In t i -> In (cos t) (icos i)) -> (forall t i, In t i -> In (sin t) (isin i)) ->
  let m := mat_mul3 A (mat_mul3 A (tra_matrix c) (rot_matrix A icos isin theta)) (tra_matrix (t_neg A c)) in
  Forall solid (map (fun p => tpt (dot A 3 (m 0%nat) (hom p)) (dot A 3 (m 1%nat) (hom p))) x) ->
  forall z t o, conv x z -> In t theta -> ptin o c -> conv (poly_rotate A gexact mid icos isin theta c x) (vrot t o z).
Proof.
  intros A mid icos isin theta c x OK HC HSn m H z t o Hz Ht Ho.
  set (rm := rmul (rmul (rtra o) (rrot t)) (rtra (vneg o))).
  assert (M : forall i j, (i < 3)%nat -> (j < 3)%nat -> In (rm i j) (m i j)).
  { unfold m, rm. apply (mat_mul3_in A OK); [apply (mat_mul3_in A OK)|]; intros i j Hi Hj; destruct Ho as [O1 O2].
    - destruct i as [|[|[|?]]], j as [|[|[|?]]]; try lia; cbn -[cos sin pt]; auto; apply In_pt; reflexivity.
    - destruct i as [|[|[|?]]], j as [|[|[|?]]]; try lia; cbn -[cos sin pt]; auto; try (apply In_pt; reflexivity). apply ineg_in; auto.
    - destruct i as [|[|[|?]]], j as [|[|[|?]]]; try lia; cbn -[cos sin pt]; auto; try (apply In_pt; reflexivity); apply ineg_in; auto. }
  apply (conv_image (vrot t o) (conv (poly_rotate A gexact mid icos isin theta c x))) with (vs := x); [vec_tac|apply conv_convex| |exact Hz].
  intros p Hp. apply (C82_thick_partial mid _ H), hull_base. eexists. split.
  - apply (in_map (fun p => tpt (dot A 3 (m 0%nat) (hom p)) (dot A 3 (m 1%nat) (hom p)))), Hp.
  - apply ptin_tpt. set (h := fun i => match i with 0%nat => fst p | 1%nat => snd p | _ => 1 end).
    assert (HH : forall k, (k < 3)%nat -> In (h k) (hom p k)) by (intros [|[|[|k]]] Hk; try lia; apply In_pt; reflexivity).
    split.
    + replace (fst (vrot t o p)) with (0 + rm 0%nat 0%nat * h 0%nat + rm 0%nat 1%nat * h 1%nat + rm 0%nat 2%nat * h 2%nat)
        by (unfold rm, rmul, rtra, rrot, h, vneg, vrot; cbn [fst snd]; ring).
      apply (dot3_in A OK); [|exact HH]. intros k Hk. apply M; lia.
    + replace (snd (vrot t o p)) with (0 + rm 1%nat 0%nat * h 0%nat + rm 1%nat 1%nat * h 1%nat + rm 1%nat 2%nat * h 2%nat)
        by (unfold rm, rmul, rtra, rrot, h, vneg, vrot; cbn [fst snd]; ring).
      apply (dot3_in A OK); [|exact HH]. intros k Hk. apply M; lia.
Qed.
(** For an angle and a center that are numbers, and operators that are exact on them, it is the rotated polygon. *)
Lemma dot3_pt (a b : nat -> itv) (u v : nat -> R) : (forall k, (k < 3)%nat -> a k = pt (u k)) -> (forall k, (k < 3)%nat -> b k = pt (v k)) ->
  dot exact 3 a b = pt (0 + u 0%nat * v 0%nat + u 1%nat * v 1%nat + u 2%nat * v 2%nat).
Proof.
  intros H K. cbn [dot]. rewrite !H, !K by lia. cbn [exact iadd imul]. rewrite !xmul_pt. reflexivity.
Qed.
Lemma mat_mul3_pt a b ra rb : (forall i j, (i < 3)%nat -> (j < 3)%nat -> a i j = pt (ra i j)) ->
  (forall i j, (i < 3)%nat -> (j < 3)%nat -> b i j = pt (rb i j)) ->
  forall i j, (i < 3)%nat -> (j < 3)%nat -> mat_mul3 exact a b i j = pt (rmul ra rb i j).
Proof.
  intros H K i j Hi Hj. unfold mat_mul3, rmul. apply (dot3_pt (a i) (fun k => b k j) (ra i) (fun k => rb k j)); intros k Hk; auto.
Qed.
Theorem C82_rotate_exact : forall mid icos isin t o x, icos (pt t) = pt (cos t) -> isin (pt t) = pt (sin t) ->
  forall z, conv (poly_rotate exact gexact mid icos isin (pt t) (tvec o) x) z <-> exists u, conv x u /\ z = vrot t o u.
Proof.
  intros mid icos isin t o x HC HSn. unfold poly_rotate. set (m := mat_mul3 exact _ _).
  set (rm := rmul (rmul (rtra o) (rrot t)) (rtra (vneg o))).
  assert (M : forall i j, (i < 3)%nat -> (j < 3)%nat -> m i j = pt (rm i j)).
  { unfold m, rm. apply mat_mul3_pt; [apply mat_mul3_pt|]; intros i j Hi Hj.
    - destruct i as [|[|[|?]]], j as [|[|[|?]]]; try lia; reflexivity.
    - destruct i as [|[|[|?]]], j as [|[|[|?]]]; try lia; cbn -[cos sin pt]; try rewrite HC; try rewrite HSn; reflexivity.
    - destruct i as [|[|[|?]]], j as [|[|[|?]]]; try lia; reflexivity. }
  assert (E : map (fun p => tpt (dot exact 3 (m 0%nat) (hom p)) (dot exact 3 (m 1%nat) (hom p))) x = map tvec (map (vrot t o) x)).
  { rewrite map_map. apply map_ext. intros p. set (h := fun i => match i with 0%nat => fst p | 1%nat => snd p | _ => 1 end).
    assert (HH : forall k, (k < 3)%nat -> hom p k = pt (h k)) by (intros [|[|[|k]]] Hk; try lia; reflexivity).
    rewrite (dot3_pt (m 0%nat) (hom p) (rm 0%nat) h), (dot3_pt (m 1%nat) (hom p) (rm 1%nat) h); try (intros k Hk; auto); try (apply M; lia).
    rewrite tpt_pts. f_equal. unfold vrot. apply pair_eq; unfold rm, rmul, rtra, rrot, h, vneg; cbn [fst snd]; ring. }
  intros z. rewrite E, thick_points. split.
  - revert z. apply conv_min.
    + intros p q k (u & U & ->) (u' & U' & ->) K. exists (mix k u u'). split; [apply conv_mix; assumption|]. vec_tac.
    + intros z Hz. apply in_map_iff in Hz as (u & <- & Hu). exists u. split; [apply conv_vertex, Hu|reflexivity].
  - intros (u & Hu & ->). revert u Hu. apply (conv_image (vrot t o)); [vec_tac|apply conv_convex|].
    intros v Hv. apply conv_vertex, in_map, Hv.
Qed.

(** ** Concrete cases *)
Definition triangle : polygon := [(0, 0); (2, 0); (0, 2)].
Definition unit_box : tpoint := (I2 0 1, I2 0 1).
Lemma unit_solid : solid unit_box.
Proof. right. exists 0, 1, 0, 1. split; [reflexivity|]. lra. Qed.
Lemma triangle_in x y : 0 <= x -> 0 <= y -> x + y <= 2 -> conv triangle (x, y).
Proof.
  intros Hx Hy Hs. destruct (Req_dec x 2) as [->|N].
  - replace y with 0 by lra. apply conv_vertex. cbn. tauto.
  - apply (conv_seg triangle (2, 0) (0, 2 * y / (2 - x))).
    + apply conv_vertex. cbn. tauto.
    + apply (conv_seg triangle (0, 0) (0, 2)); try (apply conv_vertex; cbn; tauto). exists (y / (2 - x)).
      assert (0 < 2 - x) by lra. split; [|cbn; split; field; lra]. split; [apply div_ge0; lra|].
      apply (Rmult_le_reg_r (2 - x)); [lra|]. unfold Rdiv. rewrite Rmult_assoc, Rinv_l; lra.
    + exists (1 - x / 2). split; [lra|]. cbn. split; field; lra.
Qed.
Lemma triangle_out z : conv triangle z -> 0 <= fst z /\ 0 <= snd z /\ fst z + snd z <= 2.
Proof.
  intros H. pose proof (conv_half triangle 1 0 0 z) as A. pose proof (conv_half triangle 0 1 0 z) as B. pose proof (conv_half triangle (-1) (-1) 2 z) as C.
  assert (0 <= 1 * fst z + 0 * snd z + 0) by (apply A; [intros v [<-|[<-|[<-|[]]]]; cbn; lra|exact H]).
  assert (0 <= 0 * fst z + 1 * snd z + 0) by (apply B; [intros v [<-|[<-|[<-|[]]]]; cbn; lra|exact H]).
  assert (0 <= -1 * fst z + -1 * snd z + 2) by (apply C; [intros v [<-|[<-|[<-|[]]]]; cbn; lra|exact H]). lra.
Qed.
(** a point and a box: a point between them is in the polygon, a point above is not *)
Example C82_thick_case : let l := [tvec (0, 0); (I2 1 2, I2 0 1)] in
  Forall solid l /\ conv (poly_of_thick gexact xmid l) (1, 1 / 2) /\ ~ conv (poly_of_thick gexact xmid l) (0, 1).
Proof.
  intros l. assert (S : Forall solid l).
  { constructor; [left; eexists; reflexivity|constructor; [|constructor]]. right. exists 1, 2, 0, 1. split; [reflexivity|]. lra. }
  refine (conj S (conj _ _)).
  - apply (C82_thick_partial xmid l S). replace (1, 1 / 2) with (mix (1 / 2) (0, 0) (2, 1)) by (unfold mix; cbn; apply pair_eq; lra).
    apply hull_mix; [| |lra]; apply hull_base; eexists.
    + split; [left; reflexivity|]. split; cbn; lra.
    + split; [right; left; reflexivity|]. split; cbn; lra.
  - intros H. apply (C82_thick_partial xmid l S) in H.
    assert (K : snd (0, 1) <= fst (0, 1)); [|cbn in K; lra]. revert H. generalize (0, 1). apply hull_min.
    + intros p q k Hp Hq K. cbn. nra.
    + intros z (p & [<-|[<-|[]]] & Hx & Hy); cbn in *; lra.
Qed.
Example C82_box_case : compact unit_box /\ conv (poly_of_box gexact unit_box) (1 / 2, 1) /\ ~ conv (poly_of_box gexact unit_box) (1, 2).
Proof.
  pose proof (solid_compact _ unit_solid) as C. refine (conj C (conj _ _)).
  - apply (C82_box _ C). split; cbn; lra.
  - intros H. apply (C82_box _ C) in H as [_ H]. cbn in H. lra.
Qed.
Example C82_add_case : solid unit_box /\ conv (poly_add exact gexact xmid unit_box triangle) (2, 2) /\
  ~ conv (poly_add exact gexact xmid unit_box triangle) (3, 2).
Proof.
  refine (conj unit_solid (conj _ _)).
  - apply (C82_add_exact_partial xmid unit_box triangle unit_solid). exists (1, 1), (1, 1).
    refine (conj (triangle_in 1 1 ltac:(lra) ltac:(lra) ltac:(lra)) (conj _ _)); [split; cbn; lra|]. unfold vadd. cbn. apply pair_eq; lra.
  - intros H. apply (C82_add_exact_partial xmid unit_box triangle unit_solid) in H as (u & w & U & [W1 W2] & E).
    apply triangle_out in U. unfold vadd in E. injection E as E1 E2. cbn in W1, W2. lra.
Qed.
Example C82_sub_case : conv (poly_sub exact gexact xmid triangle unit_box) (-1, -1) /\
  conv (box_sub_poly exact gexact xmid unit_box triangle) (-2, 1).
Proof.
  split.
  - apply (C82_sub_exact_partial xmid unit_box triangle unit_solid). exists (0, 0), (1, 1).
    refine (conj (triangle_in 0 0 ltac:(lra) ltac:(lra) ltac:(lra)) (conj _ _)); [split; cbn; lra|]. cbn. apply pair_eq; lra.
  - replace (-2, 1) with (fst (0, 1) - fst (2, 0), snd (0, 1) - snd (2, 0)) by (cbn; apply pair_eq; lra).
    apply C82_box_sub_partial; auto using exact_ok, unit_solid.
    + apply add_exact_solid, unit_solid.
    + apply triangle_in; lra.
    + split; cbn; lra.
Qed.
(** a matrix of intervals *)
Definition shear : imatrix := fun i j => match i, j with 0%nat, 1%nat => I2 0 1 | 0%nat, 0%nat | 1%nat, 1%nat => pt 1 | _, _ => pt 0 end.
Lemma xmul_I2 a b c : a <= b -> 0 <= c -> xmul (I2 a b) (pt c) = I2 (a * c) (b * c).
Proof.
  intros H K. assert (a * c <= b * c) by (apply Rmult_le_compat_r; lra). cbn. unfold min4, max4.
  rewrite (Rmin_left (a * c) (a * c)), (Rmin_left (b * c) (b * c)), (Rmin_left (a * c) (b * c)),
    (Rmax_left (a * c) (a * c)), (Rmax_left (b * c) (b * c)), (Rmax_right (a * c) (b * c)) by lra. reflexivity.
Qed.
Lemma box_eq a b c d a' b' c' d' : a = a' -> b = b' -> c = c' -> d = d' -> (I2 a b, I2 c d) = (I2 a' b', I2 c' d').
Proof. intros -> -> -> ->. reflexivity. Qed.
Example C82_mul_case : conv (poly_mul exact gexact xmid shear triangle) (2, 2).
Proof.
  replace (2, 2) with (vmul 1 1 0 1 (0, 2)) by (unfold vmul; cbn; apply pair_eq; lra).
  apply C82_mul_partial; auto using exact_ok; try (cbn; lra); [|apply triangle_in; lra].
  assert (D0 : forall p, 0 <= snd p -> dot exact 2 (shear 0%nat) (t_nth (tvec p)) = I2 (0 + 1 * fst p + 0 * snd p) (0 + 1 * fst p + 1 * snd p)).
  { intros p Hp. cbn [dot t_nth shear exact iadd imul tvec tpt fst snd is_empty pt].
    change (Itv (Some (fst p)) (Some (fst p))) with (pt (fst p)). change (Itv (Some (snd p)) (Some (snd p))) with (pt (snd p)).
    change (Itv (Some 1) (Some 1)) with (pt 1). rewrite xmul_pt, xmul_I2 by lra. reflexivity. }
  assert (D1 : forall p, dot exact 2 (shear 1%nat) (t_nth (tvec p)) = pt (0 + 0 * fst p + 1 * snd p)).
  { intros p. cbn [dot t_nth shear exact iadd imul tvec tpt fst snd is_empty pt].
    change (Itv (Some (fst p)) (Some (fst p))) with (pt (fst p)). change (Itv (Some (snd p)) (Some (snd p))) with (pt (snd p)).
    change (Itv (Some 1) (Some 1)) with (pt 1). change (Itv (Some 0) (Some 0)) with (pt 0). rewrite !xmul_pt. reflexivity. }
  unfold triangle. cbn [map]. rewrite !D0, !D1 by (cbn; lra). cbn [fst snd].
  constructor; [|constructor; [|constructor; [|constructor]]].
  - left. exists (0, 0). apply box_eq; cbn; lra.
  - left. exists (2, 0). apply box_eq; cbn; lra.
  - right. exists 0, 2, 2, 2. split; [|lra]. apply box_eq; cbn; lra.
Qed.
Example C82_mul_exact_case : conv (poly_mul exact gexact xmid (fun i j => if Nat.eqb i j then pt 2 else pt 0) triangle) (4, 0) /\
  ~ conv (poly_mul exact gexact xmid (fun i j => if Nat.eqb i j then pt 2 else pt 0) triangle) (4, 1).
Proof.
  split.
  - apply (C82_mul_exact xmid _ triangle 2 0 0 2); try reflexivity. exists (2, 0). split; [apply triangle_in; lra|].
    unfold vmul. cbn. apply pair_eq; lra.
  - intros H. apply (C82_mul_exact xmid _ triangle 2 0 0 2) in H as (u & U & E); try reflexivity.
    apply triangle_out in U. unfold vmul in E. injection E as E1 E2. lra.
Qed.
Example C82_union_case : conv (poly_union gexact xmid triangle [(4, 0)]) (3, 1 / 2) /\ ~ conv (poly_union gexact xmid triangle [(4, 0)]) (3, 1) /\
  conv (box_union gexact xmid unit_box triangle) (1, 1).
Proof.
  refine (conj _ (conj _ _)).
  - apply C82_union. replace (3, 1 / 2) with (mix (1 / 2) (2, 1) (4, 0)) by (unfold mix; cbn; apply pair_eq; lra).
    apply hull_mix; [|apply hull_base; right; apply conv_vertex; left; reflexivity|lra].
    replace (2, 1) with (mix (1 / 2) (0, 2) (4, 0)) by (unfold mix; cbn; apply pair_eq; lra).
    apply hull_mix; [|apply hull_base; right; apply conv_vertex; left; reflexivity|lra]. apply hull_base. left. apply triangle_in; lra.
  - intros H. apply C82_union in H. assert (K : fst (3, 1) + 2 * snd (3, 1) <= 4); [|cbn in K; lra]. revert H. generalize (3, 1). apply hull_min.
    + intros p q k Hp Hq K. cbn. nra.
    + intros z [H|H]; [apply triangle_out in H; lra|]. apply conv_one in H as ->. cbn. lra.
  - apply C82_box_union; [apply solid_compact, unit_solid|]. apply hull_base. left. split; cbn; lra.
Qed.
(** a quarter turn *)
Example C82_rotate_case : forall icos isin, icos (pt (PI / 2)) = pt (cos (PI / 2)) -> isin (pt (PI / 2)) = pt (sin (PI / 2)) ->
  conv (poly_rotate exact gexact xmid icos isin (pt (PI / 2)) (tvec (1, 0)) triangle) (1, 1).
Proof.
  intros icos isin HC HSn. apply (C82_rotate_exact xmid icos isin (PI / 2) (1, 0) triangle HC HSn). exists (2, 0). split; [apply triangle_in; lra|].
  unfold vrot. rewrite cos_PI2, sin_PI2. cbn. apply pair_eq; lra.
Qed.
(** operators that meet the contract of the rotation and are exact on numbers *)
Definition ifun (f : R -> R) (i : itv) : itv :=
  match i with Itv (Some a) (Some b) => if Reqb a b then pt (f a) else I2 (-1) 1 | Emp => Emp | _ => I2 (-1) 1 end.
Lemma ifun_in f : (forall t, -1 <= f t <= 1) -> forall t i, In t i -> In (f t) (ifun f i).
Proof.
  intros H t [|[a|] [b|]] Ht; cbn [ifun]; try (apply H); try exact Ht.
  destruct (Reqb a b) eqn:E; [|apply H]. apply Reqb_true in E as ->. cbn in Ht. replace t with b by lra. apply In_pt. reflexivity.
Qed.
Lemma ifun_pt f t : ifun f (pt t) = pt (f t).
Proof. cbn. rewrite (proj2 (Reqb_true t t) eq_refl). reflexivity. Qed.
Definition encloses (f : R -> R) (F : itv -> itv) : Prop := forall t i, In t i -> In (f t) (F i).
Example C82_rotate_contract : encloses cos (ifun cos) /\ encloses sin (ifun sin) /\
  conv (poly_rotate exact gexact xmid (ifun cos) (ifun sin) (pt (PI / 2)) (tvec (1, 0)) triangle) (1, 1).
Proof.
  refine (conj _ (conj _ _)).
  - exact (ifun_in cos COS_bound).
  - exact (ifun_in sin SIN_bound).
  - apply C82_rotate_case; apply ifun_pt.
Qed.
Example C82_neg_case : ccw triangle /\ conv (poly_neg triangle) (-1, -1).
Proof.
  split.
  - split; [cbn; lia|]. intros i j k Hi Hk. cbn in Hk. assert (i = 0 /\ j = 1 /\ k = 2)%nat as (-> & -> & ->) by lia. unfold area. cbn. lra.
  - apply C82_neg. unfold vneg. cbn. apply triangle_in; lra.
Qed.
(** The default polygon is the square of half side 9999. *)
Theorem C82_default : forall x y, conv (poly_default gexact) (x, y) <-> -9999 <= x <= 9999 /\ -9999 <= y <= 9999.
Proof. intros x y. unfold poly_default. fold (I2 (-9999) 9999). rewrite (C82_box (I2 (-9999) 9999, I2 (-9999) 9999)); [reflexivity|]. exists (-9999), 9999, (-9999), 9999. repeat split; lra. Qed.
(** The center is a mean of the middles: it is in their convex hull. *)
Theorem C82_center : forall mid l, l <> [] -> hull_of (fun w => exists p, List.In p l /\ w = (mid (fst p), mid (snd p))) (center mid l).
Proof.
  intros mid l. induction l as [|p l IH] using rev_ind; [congruence|]. intros _. destruct l as [|q l].
  - apply hull_base. exists p. split; [left; auto|]. unfold center. cbn. f_equal; lra.
  - assert (NE : q :: l <> []) by discriminate. specialize (IH NE). assert (LN : (0 < length (q :: l))%nat) by (cbn; lia). revert IH LN. generalize (q :: l). clear NE q l. intros l IH LN.
    replace (center mid (l ++ [p])) with (mix (1 / INR (S (length l))) (center mid l) (mid (fst p), mid (snd p))).
    + apply hull_mix.
      * revert IH. apply hull_min; [intros u v k; apply hull_mix|]. intros z (w & Hw & ->). apply hull_base. exists w. split; auto. apply in_or_app. auto.
      * apply hull_base. exists p. split; auto. apply in_or_app. right. left. auto.
      * rewrite S_INR. apply lt_INR in LN. cbn in LN. split; [apply Rlt_le, Rdiv_lt_0_compat; lra|]. apply Rmult_le_reg_r with (INR (length l) + 1); [lra|]. field_simplify; lra.
    + unfold center. rewrite fold_left_app. cbn [fold_left fst snd]. rewrite app_length, Nat.add_comm. cbn [length Nat.add]. rewrite S_INR. apply lt_INR in LN. cbn in LN.
      unfold mix. cbn [fst snd]. destruct (fold_left _ l (0, 0)) as [a b] eqn:E. cbn [fst snd]. f_equal; change (@length (itv * itv) l) with (@length tpoint l); change (@length (itv * itv) l) with (@length tpoint l) in LN; set (n := INR (length l)) in *; clearbody n; field; split; lra.
Qed.
Example C82_center_case : center xmid [(I2 0 2, I2 0 0); (I2 2 4, I2 2 2)] = (2, 1).
Proof. unfold center. cbn. f_equal; lra. Qed.

Print Assumptions C82_default.
Print Assumptions C82_center.
Print Assumptions C82_thick_partial.
Print Assumptions C82_add_exact_partial.
Print Assumptions C82_rotate_exact.
