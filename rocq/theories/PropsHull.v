(** * GrahamScan: order of the points and convex hull *)

From Coq Require Import Reals Lra Psatz Bool List Arith Lia Sorting.Sorted Sorting.Permutation.
Import ListNotations.
From Verif Require Import Itv Arith Tube TubeOps Concrete Geometry PropsGeom PropsGeom2 PropsGeom3.
Open Scope R_scope.

(** ** Specification *)
(** [q] is above [p0], or at its right: the points that are compared with the pivot [p0] *)
Definition above (p0 q : pt2) : Prop := snd p0 < snd q \/ (snd q = snd p0 /\ fst p0 < fst q).
Definition domain (p0 q : pt2) : Prop := q = p0 \/ above p0 q.
(** [p] is seen from [p0] at the right of [q], or is between [p0] and [q] *)
Definition before (p0 p q : pt2) : Prop := 0 < area p0 p q \/ on_seg p0 q p.

(** ** The comparator, exact *)
Lemma contains_pt a : contains (pt a) 0 = Reqb a 0.
Proof.
  destruct (Reqb a 0) eqn:E.
  - apply Reqb_true in E. apply contains_true. apply In_pt. auto.
  - apply Reqb_false in E. destruct (contains (pt a) 0) eqn:C; [|reflexivity]. apply contains_true in C. apply In_pt in C. congruence.
Qed.
Lemma orientation_pts p0 p1 p2 : orientation gexact (tvec p0) (tvec p1) (tvec p2) =
  if Reqb (area p0 p1 p2) 0 then UNDEFINED else if Rltb 0 (area p0 p1 p2) then COUNTERCLOCKWISE else CLOCKWISE.
Proof.
  unfold orientation. rewrite !tvec_some. cbn [fst snd gexact g_ar isub imul exact].
  rewrite !xsub_pt, !xmul_pt, xsub_pt, contains_pt. reflexivity.
Qed.
(** square of the distance *)
Definition d2 (p q : pt2) : R := (fst p - fst q) * (fst p - fst q) + (snd p - snd q) * (snd p - snd q).
Lemma dist_pts p q : Geometry.dist gexact (tvec p) (tvec q) = pt (d2 p q).
Proof.
  unfold Geometry.dist. rewrite !tvec_some. cbn [fst snd gexact g_ar g_sqr isub iadd exact].
  rewrite !xsub_pt, !xsqr_pt, xadd_pt. reflexivity.
Qed.
Lemma sorter_pts p0 p q : sorter gexact p0 p q =
  if Reqb (area p0 p q) 0 then Rleb (d2 p0 p) (d2 p0 q) else Rltb 0 (area p0 p q).
Proof.
  unfold sorter. rewrite orientation_pts, !dist_pts. destruct (Reqb (area p0 p q) 0); [reflexivity|].
  destruct (Rltb 0 (area p0 p q)); reflexivity.
Qed.
(** the points of the same direction *)
Lemma aligned_seg p0 p q : domain p0 p -> above p0 q -> area p0 p q = 0 ->
  exists k, 0 <= k /\ fst p = fst p0 + k * (fst q - fst p0) /\ snd p = snd p0 + k * (snd q - snd p0).
Proof.
  intros Dp Hq A. unfold area in A. destruct Hq as [Hq|[Hq1 Hq2]].
  - exists ((snd p - snd p0) / (snd q - snd p0)).
    assert (0 <= snd p - snd p0) by (destruct Dp as [->|[D|[D _]]]; lra).
    refine (conj (div_ge0 _ _ H _) (conj _ _)); [lra| |field; lra].
    apply Rmult_eq_reg_r with (snd q - snd p0); [|lra].
    replace ((fst p0 + (snd p - snd p0) / (snd q - snd p0) * (fst q - fst p0)) * (snd q - snd p0))
      with (fst p0 * (snd q - snd p0) + (snd p - snd p0) * (fst q - fst p0)) by (field; lra). lra.
  - rewrite Hq1 in A. replace (snd p0 - snd p0) with 0 in A by ring.
    assert (S : snd p = snd p0).
    { assert (Z : (snd p - snd p0) * (fst q - fst p0) = 0) by lra. apply Rmult_integral in Z as [Z|Z]; lra. }
    exists ((fst p - fst p0) / (fst q - fst p0)).
    assert (0 <= fst p - fst p0) by (destruct Dp as [->|[D|[_ D]]]; lra).
    refine (conj (div_ge0 _ _ H _) (conj _ _)); [lra|field; lra|]. rewrite Hq1, S. ring.
Qed.
Lemma sq_ge a : 0 <= a * a. Proof. exact (Rle_0_sqr a). Qed.
Lemma sq_gt a : a <> 0 -> 0 < a * a. Proof. exact (Rsqr_pos_lt a). Qed.
Lemma above_d2 p0 q : above p0 q -> 0 < d2 p0 q.
Proof.
  intros H. unfold d2. pose proof (sq_ge (fst p0 - fst q)). pose proof (sq_ge (snd p0 - snd q)). destruct H as [H|[_ H]].
  - pose proof (sq_gt (snd p0 - snd q) ltac:(lra)). lra.
  - pose proof (sq_gt (fst p0 - fst q) ltac:(lra)). lra.
Qed.
Lemma d2_scale p0 p q k : fst p = fst p0 + k * (fst q - fst p0) -> snd p = snd p0 + k * (snd q - snd p0) -> d2 p0 p = k * k * d2 p0 q.
Proof. intros Hx Hy. unfold d2. rewrite Hx, Hy. ring. Qed.
Lemma pt2_eq (p q : pt2) : fst p = fst q -> snd p = snd q -> p = q.
Proof. destruct p, q. cbn. congruence. Qed.
Lemma sorter_before p0 p q : domain p0 p -> domain p0 q -> (sorter gexact p0 p q = true <-> before p0 p q).
Proof.
  intros Dp Dq. rewrite sorter_pts. unfold before. destruct (Reqb (area p0 p q) 0) eqn:E.
  - apply Reqb_true in E. rewrite Rleb_true. split.
    + intros L. right. destruct Dq as [->|Hq].
      * exists 0. split; [lra|]. assert (Z : d2 p0 p <= 0) by (unfold d2 in *; lra). unfold d2 in Z.
        pose proof (sq_ge (fst p0 - fst p)). pose proof (sq_ge (snd p0 - snd p)).
        assert (Z1 : (fst p0 - fst p) * (fst p0 - fst p) = 0) by lra. assert (Z2 : (snd p0 - snd p) * (snd p0 - snd p) = 0) by lra.
        apply Rmult_integral in Z1. apply Rmult_integral in Z2. split; lra.
      * destruct (aligned_seg p0 p q Dp Hq E) as (k & K & Hx & Hy). exists k. split; [|auto]. split; [exact K|].
        rewrite (d2_scale p0 p q k Hx Hy) in L. pose proof (above_d2 p0 q Hq) as P. clear - K L P. apply Rnot_lt_le. intro N.
        assert (1 < k * k) by nra. assert (1 * d2 p0 q < k * k * d2 p0 q) by (apply Rmult_lt_compat_r; assumption). lra.
    + intros [H|(k & K & Hx & Hy)]; [lra|]. rewrite (d2_scale p0 p q k Hx Hy).
      assert (0 <= d2 p0 q) by (unfold d2; pose proof (sq_ge (fst p0 - fst q)); pose proof (sq_ge (snd p0 - snd q)); lra). assert (k * k <= 1) by (clear - K; nra).
      assert (k * k * d2 p0 q <= 1 * d2 p0 q) by (apply Rmult_le_compat_r; assumption). lra.
  - apply Reqb_false in E. rewrite Rltb_true. split; [auto|]. intros [H|H]; [exact H|].
    destruct H as (k & K & Hx & Hy). exfalso. apply E. unfold area. rewrite Hx, Hy. ring.
Qed.

(** ** C48 *)
Lemma area_swap p0 p q : area p0 q p = - area p0 p q. Proof. unfold area. ring. Qed.
Lemma seg_area p0 q p k r : fst p = fst p0 + k * (fst q - fst p0) -> snd p = snd p0 + k * (snd q - snd p0) -> area p0 p r = k * area p0 q r.
Proof. intros Hx Hy. unfold area. rewrite Hx, Hy. ring. Qed.
Lemma above_trans p0 a b c : domain p0 a -> above p0 b -> domain p0 c -> 0 < area p0 a b -> 0 < area p0 b c -> 0 < area p0 a c.
Proof.
  intros Da Hb Dc A B.
  assert (Ha2 : 0 <= snd a - snd p0) by (destruct Da as [->|[D|[D _]]]; lra).
  assert (Hc2 : 0 <= snd c - snd p0) by (destruct Dc as [->|[D|[D _]]]; lra).
  assert (I : (snd b - snd p0) * area p0 a c = (snd c - snd p0) * area p0 a b + (snd a - snd p0) * area p0 b c) by (unfold area; ring).
  assert (Hb2 : 0 < snd b - snd p0).
  { destruct Hb as [Hb|[Hb1 Hb2]]; [lra|]. unfold area in A. rewrite Hb1 in A. nra. }
  assert (Hc : 0 < snd c - snd p0).
  { destruct Hc2 as [H|H]; [exact H|]. exfalso. unfold area in B. rewrite <- H in B.
    destruct Dc as [->|[D|[D1 D2]]]; [|lra|].
    - replace (fst p0 - fst p0) with 0 in B by ring. lra.
    - nra. }
  assert (0 < (snd c - snd p0) * area p0 a b) by (apply Rmult_lt_0_compat; lra).
  assert (0 <= (snd a - snd p0) * area p0 b c) by (apply Rmult_le_pos; lra).
  apply Rmult_lt_reg_l with (snd b - snd p0); [exact Hb2|]. lra.
Qed.
Lemma seg_trans p0 p q r : on_seg p0 q p -> on_seg p0 r q -> on_seg p0 r p.
Proof.
  intros (k & K & Hx & Hy) (l & L & Hx' & Hy'). exists (k * l). rewrite Hx, Hy, Hx', Hy'. split; [nra|]. split; ring.
Qed.
Lemma before_trans p0 p q r : domain p0 p -> domain p0 q -> domain p0 r -> before p0 p q -> before p0 q r -> before p0 p r.
Proof.
  intros Dp Dq Dr B1 B2. destruct Dq as [->|Hq].
  { destruct B1 as [B1|(k & K & Hx & Hy)]; [unfold area in B1; nra|]. right. exists 0. split; [lra|]. rewrite Hx, Hy. split; ring. }
  destruct B1 as [B1|(k & K & Hx & Hy)].
  - destruct B2 as [B2|(l & L & Hx' & Hy')].
    + left. apply (above_trans p0 p q r); assumption.
    + left.
      assert (E : area p0 p q = l * area p0 p r) by (rewrite (area_swap p0 q p), (seg_area p0 r q l p Hx' Hy'), (area_swap p0 p r); ring).
      rewrite E in B1. clear - L B1. apply Rnot_le_lt. intro N. nra.
  - destruct B2 as [B2|B2].
    + destruct (Req_dec k 0) as [->|N].
      * right. exists 0. split; [lra|]. rewrite Hx, Hy. split; ring.
      * left. rewrite (seg_area p0 q p k r Hx Hy). apply Rmult_lt_0_compat; lra.
    + right. apply (seg_trans p0 p q r); [|exact B2]. exists k. auto.
Qed.
Lemma before_asym p0 p q : domain p0 p -> domain p0 q -> before p0 p q -> before p0 q p -> p = q.
Proof.
  intros Dp Dq [A|A] [B|B].
  - rewrite area_swap in B. lra.
  - destruct B as (k & K & Hx & Hy). rewrite (area_swap p0 q p), (seg_area p0 p q k p Hx Hy) in A. unfold area in A. lra.
  - destruct A as (k & K & Hx & Hy). rewrite (area_swap p0 p q), (seg_area p0 q p k q Hx Hy) in B. unfold area in B. lra.
  - destruct A as (k & K & Hx & Hy). destruct B as (l & L & Hx' & Hy').
    destruct Dp as [->|Hp].
    + apply pt2_eq; [rewrite Hx'|rewrite Hy']; ring.
    + assert (E : d2 p0 p = k * k * (l * l) * d2 p0 p) by (rewrite (d2_scale p0 p q k Hx Hy) at 1; rewrite (d2_scale p0 q p l Hx' Hy'); ring).
      pose proof (above_d2 p0 p Hp) as P. assert (k = 1).
      { assert (k * k * (l * l) = 1) by (apply Rmult_eq_reg_r with (d2 p0 p); lra).
        assert (l * l <= 1) by nra. assert (k * k <= 1) by nra. assert (1 <= k * k) by nra. nra. }
      subst k. apply pt2_eq; [rewrite Hx|rewrite Hy]; ring.
Qed.
Lemma before_total p0 p q : domain p0 p -> domain p0 q -> before p0 p q \/ before p0 q p.
Proof.
  intros Dp Dq. destruct (Rtotal_order 0 (area p0 p q)) as [A|[A|A]].
  - left. left. exact A.
  - symmetry in A. destruct Dq as [->|Hq].
    + right. right. exists 0. split; [lra|]. split; ring.
    + destruct (aligned_seg p0 p q Dp Hq A) as (k & K & Hx & Hy). destruct (Rle_dec k 1).
      * left. right. exists k. split; [lra|auto].
      * right. right. exists (/ k). assert (0 < k) by lra.
        split; [split; [apply Rlt_le, Rinv_0_lt_compat; lra|apply Rmult_le_reg_l with k; [lra|]; rewrite Rinv_r by lra; lra]|].
        rewrite Hx, Hy. split; field; lra.
  - right. left. rewrite area_swap. lra.
Qed.
(** For distinct points around the pivot (the points of the convex hull algorithm, once the doubles are removed), with
    the exact arithmetic: the comparator is a strict order, total, the one of the specification. *)
Theorem C48_partial : forall p0 p q r, domain p0 p -> domain p0 q -> domain p0 r ->
  (sorter gexact p0 p q = true <-> before p0 p q) /\
  (p <> q -> sorter gexact p0 p q = true -> sorter gexact p0 q p = false) /\
  (p <> q -> sorter gexact p0 p q = true \/ sorter gexact p0 q p = true) /\
  (sorter gexact p0 p q = true -> sorter gexact p0 q r = true -> sorter gexact p0 p r = true).
Proof.
  intros p0 p q r Dp Dq Dr. refine (conj (sorter_before p0 p q Dp Dq) (conj _ (conj _ _))).
  - intros N H. destruct (sorter gexact p0 q p) eqn:E; [|reflexivity]. exfalso. apply N.
    apply (before_asym p0); try assumption; apply sorter_before; assumption.
  - intros _. destruct (before_total p0 p q Dp Dq); [left|right]; apply sorter_before; assumption.
  - intros H1 H2. apply sorter_before; try assumption. apply (before_trans p0 p q r); try assumption; apply sorter_before; assumption.
Qed.
(** Each point comes before itself: the comparator is not a strict weak order, std::sort is called out of its contract. *)
Theorem C48_refuted : forall p0 p, sorter gexact p0 p p = true.
Proof.
  intros. rewrite sorter_pts. rewrite Reqb_t by (unfold area; ring). apply Rleb_t. lra.
Qed.
Example C48_ex : domain (0, 0) (2, 0) /\ domain (0, 0) (1, 1) /\ domain (0, 0) (-1, 3) /\
  sorter gexact (0, 0) (2, 0) (1, 1) = true /\ sorter gexact (0, 0) (-1, 3) (1, 1) = false.
Proof.
  refine (conj _ (conj _ (conj _ (conj _ _)))).
  - right. right. cbn. lra.
  - right. left. cbn. lra.
  - right. left. cbn. lra.
  - rewrite sorter_pts. unfold area. cbn. rewrite Reqb_f by lra. apply Rltb_t. lra.
  - rewrite sorter_pts. unfold area. cbn. rewrite Reqb_f by lra. apply Rltb_f. lra.
Qed.

(** ** C66: the convex hull *)
(** the polygon does not turn clockwise *)
Definition weak_ccw (vs : list pt2) : Prop :=
  forall i j k, (i < j < k)%nat -> (k < length vs)%nat -> 0 <= area (nth i vs (0, 0)) (nth j vs (0, 0)) (nth k vs (0, 0)).
(** no three points on a line *)
Definition general_position (vs : list pt2) : Prop :=
  forall a b c, List.In a vs -> List.In b vs -> List.In c vs -> a <> b -> b <> c -> a <> c -> area a b c <> 0.

Lemma conv_incl vs ws : (forall v, List.In v vs -> conv ws v) -> forall z, conv vs z -> conv ws z.
Proof. intros H z. induction 1 as [v Hv|p q k _ IHp _ IHq K]; [apply H, Hv|]. apply conv_mix; assumption. Qed.

(** *** remove_identical *)
Lemma v_eqb_true p q : v_eqb p q = true <-> p = q.
Proof.
  unfold v_eqb. rewrite andb_true_iff, !Reqb_true. split; [intros [A B]; apply pt2_eq; assumption|intros ->; auto].
Qed.
Lemma ri_spec l : forall acc, NoDup acc ->
  let r := fold_left (fun acc p => if existsb (v_eqb p) acc then acc else acc ++ [p]) l acc in
  NoDup r /\ (forall x, List.In x r <-> List.In x acc \/ List.In x l).
Proof.
  induction l as [|p l IH]; intros acc N; cbn [fold_left].
  - split; [exact N|]. intros x. cbn. tauto.
  - destruct (existsb (v_eqb p) acc) eqn:E.
    + destruct (IH acc N) as [N' I]. split; [exact N'|]. intros x. rewrite I. cbn. apply existsb_exists in E as (y & Y & E).
      apply v_eqb_true in E. subst y. split; [tauto|]. intros [H|[<-|H]]; tauto.
    + destruct (IH (acc ++ [p])) as [N' I].
      { apply NoDup_Add with (l := acc) (a := p); [apply Add_app || (rewrite <- (app_nil_r acc) at 1; apply Add_app)|].
        split; [exact N|]. intro H. rewrite <- not_true_iff_false in E. apply E. apply existsb_exists. exists p. split; [exact H|].
        apply v_eqb_true. reflexivity. }
      split; [exact N'|]. intros x. rewrite I, in_app_iff. cbn. tauto.
Qed.
Lemma remove_identical_spec l : NoDup (remove_identical l) /\ (forall x, List.In x (remove_identical l) <-> List.In x l).
Proof.
  destruct (ri_spec l [] (NoDup_nil _)) as [A B]. split; [exact A|]. intros x. rewrite (B x). cbn. tauto.
Qed.

(** *** the pivot *)
Lemma domain_trans a b c : domain a b -> domain b c -> domain a c.
Proof.
  unfold domain, above. intros [->|H] [->|K]; auto; right; destruct H as [H|[H1 H2]]; destruct K as [K|[K1 K2]]; try (left; lra).
  right. split; lra.
Qed.
Lemma extract_min_spec l : forall p, let '(m, o) := extract_min p l in
  Permutation (m :: o) (p :: l) /\ (forall x, List.In x (p :: l) -> domain m x).
Proof.
  induction l as [|q l IH]; intros p; cbn [extract_min].
  - split; [reflexivity|]. intros x [<-|[]]. left. reflexivity.
  - destruct (Rltb (snd q) (snd p) || (Reqb (snd p) (snd q) && Rltb (fst q) (fst p))) eqn:E.
    + specialize (IH q). destruct (extract_min q l) as [m o]. destruct IH as [P D]. split.
      * rewrite perm_swap. rewrite P. apply perm_swap || reflexivity.
      * intros x [<-|H]; [|apply D, H]. apply domain_trans with q; [apply D; left; reflexivity|]. right.
        apply orb_true_iff in E as [E|E]; [left; apply Rltb_true, E|]. apply andb_true_iff in E as [E1 E2].
        apply Reqb_true in E1. apply Rltb_true in E2. right. auto.
    + specialize (IH p). destruct (extract_min p l) as [m o]. destruct IH as [P D]. split.
      * rewrite perm_swap. rewrite P. apply perm_swap.
      * intros x [<-|[<-|H]]; [apply D; left; reflexivity| |apply D; right; exact H].
        apply domain_trans with p; [apply D; left; reflexivity|]. apply orb_false_iff in E as [E1 E2].
        apply Rltb_false in E1. destruct E1 as [E1|E1]; [right; left; exact E1|].
        rewrite Reqb_t in E2 by exact E1. cbn in E2. apply Rltb_false in E2.
        destruct E2 as [E2|E2]; [right; right; auto|left; apply pt2_eq; auto].
Qed.

(** *** the sort *)
Lemma insert_perm lt p l : Permutation (insert lt p l) (p :: l).
Proof.
  induction l as [|q l IH]; cbn; [reflexivity|]. destruct (lt p q); [reflexivity|]. rewrite IH. apply perm_swap.
Qed.
Lemma isort_perm lt l : Permutation (isort lt l) l.
Proof. induction l as [|p l IH]; cbn; [reflexivity|]. rewrite insert_perm. apply perm_skip, IH. Qed.
Lemma insert_sorted p0 p l : domain p0 p -> Forall (domain p0) l -> StronglySorted (before p0) l ->
  StronglySorted (before p0) (insert (sorter gexact p0) p l).
Proof.
  intros Dp Dl S. induction S as [|q l S IH F]; cbn [insert]; [constructor; constructor|].
  apply Forall_cons_iff in Dl as [Dq Dl]. destruct (sorter gexact p0 p q) eqn:E.
  - apply sorter_before in E; try assumption. constructor; [constructor; assumption|]. constructor; [exact E|].
    rewrite Forall_forall in *. intros x X. apply (before_trans p0 p q x); auto.
  - constructor; [apply IH, Dl|]. rewrite Forall_forall in *. intros x X.
    apply (Permutation_in _ (insert_perm _ _ _)) in X as [<-|X]; [|apply F, X].
    destruct (before_total p0 p q Dp Dq) as [B|B]; [|exact B]. apply sorter_before in B; try assumption. congruence.
Qed.
Lemma isort_sorted p0 l : Forall (domain p0) l -> StronglySorted (before p0) (isort (sorter gexact p0) l).
Proof.
  induction l as [|p l IH]; intros D; cbn [isort fold_right]; [constructor|]. apply Forall_cons_iff in D as [Dp D].
  apply insert_sorted; [exact Dp| |apply IH, D].
  apply Forall_forall. intros x X. rewrite Forall_forall in D. apply D. apply (Permutation_in _ (isort_perm _ _)) in X. exact X.
Qed.
Lemma isort_head p0 l : Forall (domain p0) l ->
  exists o, isort (sorter gexact p0) (p0 :: l) = p0 :: o /\ Permutation o l /\ StronglySorted (before p0) o.
Proof.
  intros D. assert (D' : Forall (domain p0) (p0 :: l)) by (constructor; [left; reflexivity|exact D]).
  pose proof (isort_sorted p0 _ D') as S. pose proof (isort_perm (sorter gexact p0) (p0 :: l)) as P.
  destruct (isort (sorter gexact p0) (p0 :: l)) as [|f o]; [apply Permutation_nil in P; discriminate|].
  apply StronglySorted_inv in S as [S F]. assert (f = p0) as ->.
  { assert (I : List.In p0 (f :: o)) by (apply (Permutation_in _ (Permutation_sym P)); left; reflexivity).
    destruct I as [->|I]; [reflexivity|]. rewrite Forall_forall in F. destruct (F p0 I) as [A|A].
    - exfalso. unfold area in A. lra.
    - destruct A as (k & _ & Hx & Hy). apply pt2_eq; [rewrite Hx|rewrite Hy]; ring. }
  exists o. split; [reflexivity|]. split; [apply Permutation_cons_inv in P; exact P|exact S].
Qed.

(** *** the farthest point of each direction *)
Lemma aligned_pts p0 p q : aligned gexact (tvec p0) (tvec p) (tvec q) = if Reqb (area p0 p q) 0 then YES else NO.
Proof.
  unfold aligned. rewrite !tvec_some. cbn [fst snd gexact g_ar isub imul exact]. rewrite !xsub_pt, !xmul_pt, xsub_pt, contains_pt.
  change ((fst p - fst p0) * (snd q - snd p0) - (snd p - snd p0) * (fst q - fst p0)) with (area p0 p q).
  destruct (Reqb (area p0 p q) 0) eqn:E.
  - apply Reqb_true in E. rewrite E. destruct (itv_eqb (pt 0) (pt 0)) eqn:I; [reflexivity|]. exfalso.
    revert I. cbn. rewrite Reqb_refl. cbn. discriminate.
  - destruct (itv_eqb (pt (area p0 p q)) (pt 0)) eqn:I; [|reflexivity]. exfalso. apply Reqb_false in E. apply E.
    revert I. cbn. rewrite andb_true_iff. intros [I _]. apply Reqb_true in I. exact I.
Qed.
Lemma keep_last_cons2 p0 p q r : keep_last gexact p0 (p :: q :: r) =
  if Reqb (area p0 p q) 0 then keep_last gexact p0 (q :: r) else p :: keep_last gexact p0 (q :: r).
Proof. cbn [keep_last]. rewrite aligned_pts. destruct (Reqb (area p0 p q) 0); reflexivity. Qed.
Lemma keep_last_spec p0 l : Forall (above p0) l -> StronglySorted (before p0) l ->
  let k := keep_last gexact p0 l in
  incl k l /\ StronglySorted (fun a b => 0 < area p0 a b) k /\ (forall x, List.In x l -> exists y, List.In y k /\ on_seg p0 y x).
Proof.
  induction l as [|p l IH]; intros A S k.
  { subst k. cbn. refine (conj _ (conj _ _)); [intros x []|constructor|intros x []]. }
  apply Forall_cons_iff in A as [Ap A]. apply StronglySorted_inv in S as [S F]. specialize (IH A S).
  destruct l as [|q r].
  { subst k. cbn. refine (conj (incl_refl _) (conj _ _)); [constructor; constructor|].
    intros x [<-|[]]. exists p. split; [left; reflexivity|]. exists 1. split; [lra|]. split; ring. }
  subst k. rewrite keep_last_cons2. destruct IH as (I1 & I2 & I3).
  assert (Aq : above p0 q) by (apply Forall_cons_iff in A; apply A).
  assert (Bpq : before p0 p q) by (apply Forall_cons_iff in F; apply F).
  destruct (Reqb (area p0 p q) 0) eqn:E.
  - apply Reqb_true in E. refine (conj _ (conj I2 _)); [intros x X; right; apply I1, X|].
    intros x [<-|X]; [|apply I3, X]. destruct (I3 q (or_introl eq_refl)) as (y & Y & Hy). exists y. split; [exact Y|].
    apply (seg_trans p0 p q y); [|exact Hy]. destruct Bpq as [B|B]; [lra|exact B].
  - apply Reqb_false in E. assert (P : 0 < area p0 p q).
    { destruct Bpq as [B|(k & K & Hx & Hy)]; [exact B|]. exfalso. apply E. unfold area. rewrite Hx, Hy. ring. }
    refine (conj _ (conj _ _)).
    + intros x [<-|X]; [left; reflexivity|right; apply I1, X].
    + constructor; [exact I2|]. apply Forall_forall. intros y Y. apply I1 in Y. destruct Y as [<-|Y]; [exact P|].
      apply StronglySorted_inv in S as [_ Fq]. rewrite Forall_forall in Fq, A. specialize (Fq y Y).
      destruct Fq as [B|(k & K & Hx & Hy)].
      * apply (above_trans p0 p q y); try assumption; right; [exact Ap|]. apply A. right. exact Y.
      * assert (Eq : area p0 p q = k * area p0 p y) by (rewrite (area_swap p0 q p), (seg_area p0 y q k p Hx Hy), (area_swap p0 p y); ring).
        rewrite Eq in P. clear - P K. apply Rnot_le_lt. intro N. nra.
    + intros x [<-|X].
      * exists p. split; [left; reflexivity|]. exists 1. split; [lra|]. split; ring.
      * destruct (I3 x X) as (y & Y & H). exists y. split; [right; exact Y|exact H].
Qed.

(** *** the scan: the stack is [s ++ [p0]], the top first *)
Definition lefts (p0 : pt2) (s : list pt2) : Prop := StronglySorted (fun a b => 0 < area p0 b a) s.
Fixpoint wc (s : list pt2) : Prop :=
  match s with [] => True | p :: r => ForallOrdPairs (fun b c => 0 <= area c b p) r /\ wc r end.
Lemma tri_in p0 n t p : 0 < area p0 n t -> 0 < area p0 t p -> 0 <= area p0 n p -> area n t p <= 0 ->
  forall vs, conv vs p0 -> conv vs n -> conv vs p -> conv vs t.
Proof.
  intros A B C D vs Hp0 Hn Hp.
  (* t = (area p0 t p * n + area p0 n t * p - area n t p * p0) / area p0 n p *)
  assert (S : area p0 n p = area p0 n t + area p0 t p + - area n t p) by (unfold area; ring).
  set (T := area p0 n p) in *. set (u := area p0 n t) in *. set (v := area p0 t p) in *. set (w := - area n t p) in *.
  assert (W : 0 <= w) by (unfold w; lra).
  assert (Ex : T * fst t = v * fst n + u * fst p + w * fst p0) by (unfold T, u, v, w, area; ring).
  assert (Ey : T * snd t = v * snd n + u * snd p + w * snd p0) by (unfold T, u, v, w, area; ring).
  assert (TP : 0 < T) by lra.
  apply (conv_seg vs (mix (u / (u + v)) n p) p0); [apply conv_mix; [exact Hn|exact Hp|]|exact Hp0|].
  - split; [apply div_ge0; lra|]. apply Rmult_le_reg_r with (u + v); [lra|]. unfold Rdiv. rewrite Rmult_assoc, Rinv_l by lra. lra.
  - exists (w / T). split; [split; [apply div_ge0; lra|apply Rmult_le_reg_r with T; [lra|]; unfold Rdiv; rewrite Rmult_assoc, Rinv_l by lra; lra]|].
    unfold mix. cbn [fst snd]. split.
    + apply Rmult_eq_reg_l with T; [|lra]. rewrite Ex. rewrite S. field. lra.
    + apply Rmult_eq_reg_l with T; [|lra]. rewrite Ey. rewrite S. field. lra.
Qed.
Lemma pop_cw_cons2 p t n r : pop_cw gexact p (t :: n :: r) = if Rltb (area n t p) 0 then pop_cw gexact p (n :: r) else t :: n :: r.
Proof.
  cbn [pop_cw]. rewrite orientation_pts. destruct (Rltb (area n t p) 0) eqn:E.
  - apply Rltb_true in E. rewrite Reqb_f by lra. rewrite Rltb_f by lra. reflexivity.
  - apply Rltb_false in E. destruct (Reqb (area n t p) 0) eqn:Q; [reflexivity|]. apply Reqb_false in Q.
    rewrite Rltb_t by lra. reflexivity.
Qed.
Lemma pop_cw_spec p0 p s : s <> [] -> lefts p0 s -> wc s -> Forall (fun x => 0 < area p0 x p) s ->
  exists s', pop_cw gexact p (s ++ [p0]) = s' ++ [p0] /\ s' <> [] /\ incl s' s /\ lefts p0 s' /\ wc s' /\
    match s' with t :: n :: _ => 0 <= area n t p | _ => True end /\
    (forall vs, conv vs p0 -> conv vs p -> (forall x, List.In x s' -> conv vs x) -> forall x, List.In x s -> conv vs x).
Proof.
  induction s as [|t s IH]; intros N L W F; [congruence|]. destruct s as [|n r].
  - exists [t]. refine (conj _ (conj _ (conj (incl_refl _) (conj L (conj W (conj I _)))))); [|discriminate|intros; auto].
    change ([t] ++ [p0]) with (t :: p0 :: []). rewrite pop_cw_cons2.
    apply Forall_cons_iff in F as [F _]. rewrite Rltb_f by lra. reflexivity.
  - change ((t :: n :: r) ++ [p0]) with (t :: n :: (r ++ [p0])). rewrite pop_cw_cons2.
    destruct (Rltb (area n t p) 0) eqn:E.
    + apply Rltb_true in E. apply StronglySorted_inv in L as [L Lt]. cbn [wc] in W. destruct W as [_ W].
      apply Forall_cons_iff in F as [Ft F].
      destruct (IH ltac:(discriminate) L W F) as (s' & E1 & E2 & E3 & E4 & E5 & E6 & E7).
      exists s'. refine (conj E1 (conj E2 (conj _ (conj E4 (conj E5 (conj E6 _)))))); [intros x X; right; apply E3, X|].
      intros vs H0 Hp H x [<-|X]; [|apply (E7 vs H0 Hp H x X)].
      apply (tri_in p0 n t p); try assumption.
      * apply Forall_cons_iff in Lt. apply Lt.
      * apply Forall_cons_iff in F. apply Rlt_le, F.
      * lra.
      * apply (E7 vs H0 Hp H). left. reflexivity.
    + apply Rltb_false in E. exists (t :: n :: r).
      refine (conj eq_refl (conj _ (conj (incl_refl _) (conj L (conj W (conj E _)))))); [discriminate|intros; auto].
Qed.
Lemma push_wc p0 p s : lefts p0 s -> wc s -> Forall (fun x => 0 < area p0 x p) s ->
  match s with t :: n :: _ => 0 <= area n t p | _ => True end -> lefts p0 (p :: s) /\ wc (p :: s).
Proof.
  intros L W F T. split; [constructor; assumption|]. cbn [wc]. split; [|exact W].
  destruct s as [|t [|n r]]; [constructor|constructor; constructor|].
  apply Forall_cons_iff in F as [Ft F]. apply StronglySorted_inv in L as [L Lt]. destruct W as [Wt W].
  assert (H1 : Forall (fun x => 0 <= area x t p) (n :: r)).
  { apply Forall_forall. intros x [<-|X]; [exact T|].
    assert (I : area p0 n t * area x t p = area x n t * area p0 t p + area p0 x t * area n t p) by (unfold area; ring).
    rewrite Forall_forall in Lt. assert (0 < area p0 n t) by (apply Lt; left; reflexivity).
    assert (0 < area p0 x t) by (apply Lt; right; exact X).
    assert (0 <= area x n t). { inversion Wt as [|? ? Q _]; subst. rewrite Forall_forall in Q. apply Q, X. }
    assert (0 <= area x n t * area p0 t p) by (apply Rmult_le_pos; lra). assert (0 <= area p0 x t * area n t p) by (apply Rmult_le_pos; lra).
    apply Rmult_le_reg_l with (area p0 n t); [assumption|]. lra. }
  constructor; [exact H1|].
  assert (G : forall l, incl l (n :: r) -> lefts p0 l -> ForallOrdPairs (fun b c => 0 <= area c b t) l -> ForallOrdPairs (fun b c => 0 <= area c b p) l).
  { induction l as [|b l IH]; intros Il Ll Pl; [constructor|]. inversion Pl as [|? ? Q1 Q2]; subst. apply StronglySorted_inv in Ll as [Ll Fl].
    constructor; [|apply IH; [intros x X; apply Il; right; exact X|exact Ll|exact Q2]].
    apply Forall_forall. intros c C.
    assert (I : area p0 b t * area c b p = area p0 b p * area c b t + area p0 c b * area b t p) by (unfold area; ring).
    rewrite Forall_forall in *. assert (Ib : List.In b (n :: r)) by (apply Il; left; reflexivity).
    pose proof (Lt b Ib). pose proof (F b Ib). pose proof (Q1 c C). pose proof (Fl c C). pose proof (H1 b Ib).
    assert (0 <= area p0 b p * area c b t) by (apply Rmult_le_pos; lra). assert (0 <= area p0 c b * area b t p) by (apply Rmult_le_pos; lra).
    apply Rmult_le_reg_l with (area p0 b t); [assumption|]. lra. }
  apply G; [apply incl_refl|exact L|exact Wt].
Qed.
Lemma scan_spec p0 ks : forall s, s <> [] -> lefts p0 s -> wc s -> StronglySorted (fun a b => 0 < area p0 a b) ks ->
  (forall k, List.In k ks -> Forall (fun x => 0 < area p0 x k) s) ->
  exists s', fold_left (scan_pt gexact) ks (s ++ [p0]) = s' ++ [p0] /\ s' <> [] /\ incl s' (s ++ ks) /\ lefts p0 s' /\ wc s' /\
    (forall vs, conv vs p0 -> (forall x, List.In x s' -> conv vs x) -> forall x, List.In x (s ++ ks) -> conv vs x).
Proof.
  induction ks as [|k ks IH]; intros s N L W S F.
  - exists s. rewrite app_nil_r. refine (conj eq_refl (conj N (conj (incl_refl _) (conj L (conj W _))))). auto.
  - cbn [fold_left]. unfold scan_pt at 2.
    destruct (pop_cw_spec p0 k s N L W (F k (or_introl eq_refl))) as (s1 & E1 & E2 & E3 & E4 & E5 & E6 & E7). rewrite E1.
    assert (F1 : Forall (fun x => 0 < area p0 x k) s1).
    { pose proof (F k (or_introl eq_refl)) as Fk. rewrite Forall_forall in *. intros x X. apply Fk, E3, X. }
    destruct (push_wc p0 k s1 E4 E5 F1 E6) as [L2 W2]. apply StronglySorted_inv in S as [S Sk].
    destruct (IH (k :: s1) ltac:(discriminate) L2 W2 S) as (s' & G1 & G2 & G3 & G4 & G5 & G6).
    { intros k' K'. rewrite Forall_forall in Sk. constructor; [apply Sk, K'|].
      pose proof (F k' (or_intror K')) as Fk. rewrite Forall_forall in *. intros x X. apply Fk, E3, X. }
    exists s'. refine (conj G1 (conj G2 (conj _ (conj G4 (conj G5 _))))).
    + intros x X. specialize (G3 x X). cbn [app] in G3. destruct G3 as [<-|G3]; [apply in_app_iff; right; left; reflexivity|].
      apply in_app_iff in G3. apply in_app_iff. destruct G3 as [G3|G3]; [left; apply E3, G3|right; right; exact G3].
    + intros vs H0 H x X. specialize (G6 vs H0 H). cbn [app] in G6.
      apply in_app_iff in X as [X|[<-|X]]; [|apply G6; left; reflexivity|apply G6; right; apply in_app_iff; right; exact X].
      apply (E7 vs H0); [apply G6; left; reflexivity| |exact X]. intros y Y. apply G6. right. apply in_app_iff. left. exact Y.
Qed.

(** *** the whole algorithm *)
Lemma hull_main pts : (4 <= length (remove_identical pts))%nat -> exists p0 s,
  convex_hull gexact pts = p0 :: rev s /\ incl (p0 :: s) pts /\ (forall x, List.In x pts -> conv (p0 :: s) x) /\
  ((lefts p0 s /\ wc s /\ (2 <= length s)%nat) \/ (exists k c, s = [c; k] /\ forall x, List.In x pts -> on_seg p0 k x)).
Proof.
  intros Len. unfold convex_hull. destruct (remove_identical_spec pts) as [N I].
  destruct (remove_identical pts) as [|v0 [|v1 [|v2 [|v3 vs]]]] eqn:V; cbn [length] in Len; try lia. clear Len. cbv zeta.
  pose proof (extract_min_spec (v1 :: v2 :: v3 :: vs) v0) as X.
  destruct (extract_min v0 (v1 :: v2 :: v3 :: vs)) as [p0 others]. destruct X as [P D].
  assert (N' : NoDup (p0 :: others)) by (apply (Permutation_NoDup (Permutation_sym P)), N).
  assert (Do : Forall (domain p0) others).
  { apply Forall_forall. intros x X. apply D. apply (Permutation_in _ P). right. exact X. }
  destruct (isort_head p0 others Do) as (o & -> & Po & So).
  assert (No : NoDup (p0 :: o)) by (apply (Permutation_NoDup (Permutation_sym (perm_skip p0 Po))), N').
  assert (Ao : Forall (above p0) o).
  { apply Forall_forall. intros x X. rewrite Forall_forall in Do. destruct (Do x (Permutation_in _ Po X)) as [->|H]; [|exact H].
    apply NoDup_cons_iff in No as [No _]. contradiction. }
  assert (Io : forall x, List.In x (p0 :: o) <-> List.In x pts).
  { intros x. rewrite <- I. split; intro X.
    - apply (Permutation_in _ P). apply (Permutation_in _ (perm_skip p0 Po)). exact X.
    - apply (Permutation_in _ (Permutation_sym (perm_skip p0 Po))). apply (Permutation_in _ (Permutation_sym P)). exact X. }
  assert (Lo : (3 <= length o)%nat).
  { apply Permutation_length in P. apply Permutation_length in Po. cbn [length] in P. lia. }
  destruct (keep_last_spec p0 o Ao So) as (K1 & K2 & K3). set (k := keep_last gexact p0 o) in *. clearbody k.
  assert (C0 : forall s, conv (p0 :: s) p0) by (intros s; apply conv_vertex; left; reflexivity).
  destruct k as [|k1 [|k2 ks]].
  - destruct o as [|x o]; [cbn in Lo; lia|]. destruct (K3 x (or_introl eq_refl)) as (y & [] & _).
  - (* all the points are aligned *)
    destruct o as [|o1 [|o2 [|o3 o]]]; cbn [length] in Lo; try lia. cbn [app length skipn fold_left rev].
    assert (Sg : forall x, List.In x pts -> on_seg p0 k1 x).
    { intros x X. apply Io in X as [<-|X].
      - exists 0. split; [lra|]. split; ring.
      - destruct (K3 x X) as (y & [<-|[]] & H). exact H. }
    exists p0, [o2; k1]. refine (conj eq_refl (conj _ (conj _ _))).
    + intros x [<-|[<-|[<-|[]]]]; apply Io; [left; reflexivity|right; right; left; reflexivity|right; apply K1; left; reflexivity].
    + intros x X. apply (conv_seg _ p0 k1); [apply C0|apply conv_vertex; right; right; left; reflexivity|apply Sg, X].
    + right. exists k1, o2. auto.
  - cbn [app length skipn]. apply StronglySorted_inv in K2 as [K2 F1]. apply StronglySorted_inv in K2 as [K2 F2].
    assert (F12 : 0 < area p0 k1 k2) by (apply Forall_cons_iff in F1; apply F1).
    destruct (scan_spec p0 ks [k2; k1]) as (s & E1 & E2 & E3 & E4 & E5 & E6).
    + discriminate.
    + constructor; [constructor; constructor|]. constructor; [exact F12|constructor].
    + cbn. split; [constructor; constructor|]. split; [constructor|exact Logic.I].
    + exact K2.
    + intros x X. rewrite Forall_forall in F1, F2. constructor; [apply F2, X|]. constructor; [apply F1; right; exact X|constructor].
    + change [k2; k1; p0] with ([k2; k1] ++ [p0]). rewrite E1, rev_app_distr.
      assert (Cv : forall x, List.In x pts -> conv (p0 :: s) x).
      { assert (Cs : forall x, List.In x ([k2; k1] ++ ks) -> conv (p0 :: s) x).
        { apply E6; [apply C0|]. intros x X. apply conv_vertex. right. exact X. }
        intros x X. apply Io in X as [<-|X]; [apply C0|]. destruct (K3 x X) as (y & Y & H).
        apply (conv_seg _ p0 y); [apply C0| |exact H]. apply Cs. cbn. cbn in Y. tauto. }
      exists p0, s. refine (conj eq_refl (conj _ (conj Cv _))).
      * intros x [<-|X]; apply Io; [left; reflexivity|right]. apply K1. apply E3 in X. cbn in X. cbn. tauto.
      * left. refine (conj E4 (conj E5 _)). destruct s as [|s1 [|s2 s]]; [congruence| |cbn; lia]. exfalso.
        (* the points are not aligned *)
        assert (I1 : List.In k1 pts) by (apply Io; right; apply K1; left; reflexivity).
        assert (I2 : List.In k2 pts) by (apply Io; right; apply K1; right; left; reflexivity).
        assert (H : forall z, conv [p0; s1] z -> area p0 s1 z = 0).
        { intros z. induction 1 as [v Hv|p q l _ IHp _ IHq _].
          - destruct Hv as [<-|[<-|[]]]; unfold area; ring.
          - unfold area, mix in *. cbn [fst snd].
            replace _ with ((1 - l) * ((fst s1 - fst p0) * (snd p - snd p0) - (snd s1 - snd p0) * (fst p - fst p0)) +
              l * ((fst s1 - fst p0) * (snd q - snd p0) - (snd s1 - snd p0) * (fst q - fst p0))) by ring. rewrite IHp, IHq. ring. }
        assert (A1 := H k1 (Cv k1 I1)). assert (A2 := H k2 (Cv k2 I2)).
        assert (As : above p0 s1).
        { rewrite Forall_forall in Ao. apply Ao. apply K1. specialize (E3 s1 (or_introl eq_refl)). cbn in E3. cbn. tauto. }
        clear - F12 A1 A2 As. unfold area in *. destruct As as [As|[As1 As2]].
        -- assert (Z : (snd s1 - snd p0) * ((fst k1 - fst p0) * (snd k2 - snd p0) - (snd k1 - snd p0) * (fst k2 - fst p0)) = 0).
           { replace _ with ((snd k1 - snd p0) * ((fst s1 - fst p0) * (snd k2 - snd p0) - (snd s1 - snd p0) * (fst k2 - fst p0)) -
               (snd k2 - snd p0) * ((fst s1 - fst p0) * (snd k1 - snd p0) - (snd s1 - snd p0) * (fst k1 - fst p0))) by ring. rewrite A1, A2. ring. }
           apply Rmult_integral in Z as [Z|Z]; lra.
        -- assert (Z1 : (fst s1 - fst p0) * (snd k1 - snd p0) = 0) by (rewrite As1 in A1; lra).
           assert (Z2 : (fst s1 - fst p0) * (snd k2 - snd p0) = 0) by (rewrite As1 in A2; lra).
           apply Rmult_integral in Z1 as [Z1|Z1]; [lra|]. apply Rmult_integral in Z2 as [Z2|Z2]; [lra|].
           rewrite Z1, Z2 in F12. lra.
Qed.
Lemma hull_small pts : (length (remove_identical pts) < 4)%nat -> convex_hull gexact pts = remove_identical pts.
Proof. unfold convex_hull. destruct (remove_identical pts) as [|v0 [|v1 [|v2 [|v3 vs]]]]; cbn [length]; intros; reflexivity || lia. Qed.

(** The vertices are some of the points, and the polygon is the convex hull of the points. *)
Theorem C66_hull : forall pts, incl (convex_hull gexact pts) pts /\ forall z, conv (convex_hull gexact pts) z <-> conv pts z.
Proof.
  intros pts. destruct (Nat.lt_ge_cases (length (remove_identical pts)) 4) as [L|L].
  - rewrite (hull_small pts L). destruct (remove_identical_spec pts) as [_ I]. split; [intros x X; apply I, X|].
    intros z. split; apply conv_incl; intros v Hv; apply conv_vertex, I, Hv.
  - destruct (hull_main pts L) as (p0 & s & -> & H1 & H2 & _).
    assert (E : forall x, List.In x (p0 :: rev s) <-> List.In x (p0 :: s)) by (intros x; cbn; rewrite <- in_rev; tauto).
    split; [intros x X; apply H1, E, X|]. intros z. split; apply conv_incl; intros v Hv.
    + apply conv_vertex, H1, E, Hv.
    + apply (conv_incl (p0 :: s)); [|apply H2, Hv]. intros w Hw. apply conv_vertex, E, Hw.
Qed.

Lemma pairs_nth (R : pt2 -> pt2 -> Prop) l : ForallOrdPairs R l -> forall i j, (i < j)%nat -> (j < length l)%nat -> R (nth i l (0, 0)) (nth j l (0, 0)).
Proof.
  induction 1 as [|a l F _ IH]; intros i j H K; [cbn in K; lia|]. cbn in K. destruct j as [|j]; [lia|]. destruct i as [|i]; cbn [nth].
  - rewrite Forall_forall in F. apply F, nth_In. lia.
  - apply IH; lia.
Qed.
Lemma wc_nth s : wc s -> forall i j k, (i < j < k)%nat -> (k < length s)%nat -> 0 <= area (nth k s (0, 0)) (nth j s (0, 0)) (nth i s (0, 0)).
Proof.
  induction s as [|p s IH]; intros W i j k H K; [cbn in K; lia|]. cbn in K. destruct W as [W1 W].
  destruct k as [|k]; [lia|]. destruct j as [|j]; [lia|]. destruct i as [|i]; cbn [nth].
  - apply (pairs_nth _ _ W1); lia.
  - apply (IH W); lia.
Qed.
Lemma lefts_nth p0 s : lefts p0 s -> forall i j, (i < j)%nat -> (j < length s)%nat -> 0 < area p0 (nth j s (0, 0)) (nth i s (0, 0)).
Proof.
  intros L. apply (pairs_nth (fun a b => 0 < area p0 b a)). induction L as [|a l _ IH F]; constructor; assumption.
Qed.
Lemma rev_nth' (l : list pt2) i : (i < length l)%nat -> nth i (rev l) (0, 0) = nth (length l - S i) l (0, 0).
Proof. apply rev_nth. Qed.
Lemma stack_turns p0 s : lefts p0 s -> wc s -> forall i j k, (i < j < k)%nat -> (k < length (p0 :: rev s))%nat ->
  (i = O -> 0 < area (nth i (p0 :: rev s) (0, 0)) (nth j (p0 :: rev s) (0, 0)) (nth k (p0 :: rev s) (0, 0))) /\
  0 <= area (nth i (p0 :: rev s) (0, 0)) (nth j (p0 :: rev s) (0, 0)) (nth k (p0 :: rev s) (0, 0)).
Proof.
  intros L W i j k H K. cbn [length] in K. rewrite rev_length in K. destruct k as [|k]; [lia|]. destruct j as [|j]; [lia|].
  destruct i as [|i]; cbn [nth]; rewrite !rev_nth' by lia.
  - assert (0 < area p0 (nth (length s - S j) s (0, 0)) (nth (length s - S k) s (0, 0))) by (apply (lefts_nth p0 s L); lia).
    split; [auto|lra].
  - split; [lia|]. apply (wc_nth s W); lia.
Qed.
Lemma distinct_len pts l : NoDup l -> incl l pts -> (length l <= length (remove_identical pts))%nat.
Proof.
  intros N I. destruct (remove_identical_spec pts) as [_ E]. apply NoDup_incl_length; [exact N|]. intros x X. apply E, I, X.
Qed.
(** From four distinct points on, the polygon never turns clockwise. *)
Theorem C66_turns : forall pts l, NoDup l -> incl l pts -> (4 <= length l)%nat -> weak_ccw (convex_hull gexact pts).
Proof.
  intros pts l N I Len. pose proof (distinct_len pts l N I).
  destruct (hull_main pts ltac:(lia)) as (p0 & s & -> & H1 & H2 & [(L & W & _)|(k & c & -> & Sg)]).
  - intros i j k Hi Hk. apply (stack_turns p0 s L W i j k Hi Hk).
  - intros i j m Hi Hm. cbn in Hm. assert (i = 0 /\ j = 1 /\ m = 2)%nat as (-> & -> & ->) by lia. cbn [rev app nth].
    destruct (Sg c (H1 c ltac:(right; left; reflexivity))) as (l0 & _ & Hx & Hy). unfold area. rewrite Hx, Hy. right. ring.
Qed.
(** When moreover no three points are on a line, the polygon is strictly convex, counterclockwise. *)
Theorem C66_ccw : forall pts l, NoDup l -> incl l pts -> (4 <= length l)%nat -> general_position pts -> ccw (convex_hull gexact pts).
Proof.
  intros pts l N I Len G. pose proof (distinct_len pts l N I).
  destruct (hull_main pts ltac:(lia)) as (p0 & s & -> & H1 & H2 & [(L & W & Ls)|(k & c & -> & Sg)]).
  - split; [cbn; rewrite rev_length; lia|]. intros i j k Hi Hk.
    set (v := fun i => nth i (p0 :: rev s) (0, 0)). assert (V : forall i, (i < length (p0 :: rev s))%nat -> List.In (v i) pts).
    { intros m Hm. apply H1. pose proof (nth_In (p0 :: rev s) (0, 0) Hm) as X. cbn in X |- *. rewrite <- in_rev in X. exact X. }
    assert (T : forall i j k, (i < j < k)%nat -> (k < length (p0 :: rev s))%nat -> (i = O -> 0 < area (v i) (v j) (v k)) /\ 0 <= area (v i) (v j) (v k))
      by exact (stack_turns p0 s L W).
    assert (D : forall i j, (i < j)%nat -> (j < length (p0 :: rev s))%nat -> v i <> v j).
    { intros a b Hab Hb E. destruct a as [|a].
      - destruct (Nat.lt_ge_cases 1 b) as [B|B].
        + destruct (T 0%nat 1%nat b ltac:(lia) Hb) as [P _]. specialize (P eq_refl). rewrite E in P. unfold area in P. lra.
        + assert (b = 1%nat) as -> by lia. assert (L2 : (2 < length (p0 :: rev s))%nat) by (cbn; rewrite rev_length; lia).
          destruct (T 0%nat 1%nat 2%nat ltac:(lia) L2) as [P _]. specialize (P eq_refl). rewrite E in P. unfold area in P. lra.
      - destruct (T 0%nat (S a) b ltac:(lia) Hb) as [P _]. specialize (P eq_refl). rewrite E in P. unfold area in P. lra. }
    destruct (T i j k Hi Hk) as [_ [P|P]]; [exact P|]. exfalso.
    apply (G (v i) (v j) (v k)); try (apply V; lia); try (apply D; lia). auto.
  - exfalso. destruct (remove_identical_spec pts) as [Nr Er]. destruct (remove_identical pts) as [|a [|b [|d r]]]; cbn [length] in *; try lia.
    destruct (Sg a) as (ka & _ & Ax & Ay); [apply Er; left; reflexivity|]. destruct (Sg b) as (kb & _ & Bx & By_); [apply Er; right; left; reflexivity|].
    destruct (Sg d) as (kd & _ & Dx & Dy); [apply Er; right; right; left; reflexivity|].
    apply NoDup_cons_iff in Nr as [N1 Nr]. apply NoDup_cons_iff in Nr as [N2 Nr]. cbn in N1, N2.
    apply (G a b d); try (apply Er; cbn; tauto); try tauto; [intros ->; tauto|intros ->; tauto|intros ->; tauto|].
    unfold area. rewrite Ax, Ay, Bx, By_, Dx, Dy. ring.
Qed.
(** Hence the verdicts on the polygon made of points in general position are about the convex hull of these points. *)
Theorem C66_contains : forall pts l z, NoDup l -> incl l pts -> (4 <= length l)%nat -> general_position pts ->
  let verdict := poly_contains gexact (convex_hull gexact pts) (tvec z) in
  (verdict = YES -> conv pts z) /\ (verdict = NO <-> ~ conv pts z) /\ (verdict = MAYBE <-> on_boundary (convex_hull gexact pts) z).
Proof.
  intros pts l z N I Len G verdict. pose proof (C66_ccw pts l N I Len G) as C. destruct (C66_hull pts) as [_ E].
  destruct (C47_point_partial (convex_hull gexact pts) z C) as (P1 & P2 & P3). subst verdict. rewrite <- E. tauto.
Qed.
(** Up to three points: the points themselves, in their order, possibly clockwise. *)
Theorem C66_turns_refuted : exists pts, ~ weak_ccw (convex_hull gexact pts).
Proof.
  exists [(0, 0); (0, 1); (1, 0)]. rewrite hull_small.
  - assert (E : remove_identical [(0, 0); (0, 1); (1, 0)] = [(0, 0); (0, 1); (1, 0)]).
    { unfold remove_identical. cbn. unfold v_eqb. cbn. rewrite (Reqb_f 1 0) by lra. rewrite andb_false_r. cbn. rewrite (Reqb_f 1 0) by lra. reflexivity. }
    rewrite E. intros H. specialize (H 0 1 2)%nat. cbn [nth] in H. unfold area in H. cbn [fst snd length] in H.
    assert (0 <= (0 - 0) * (0 - 0) - (1 - 0) * (1 - 0)) by (apply H; lia). lra.
  - pose proof (distinct_len [(0, 0); (0, 1); (1, 0)]) as _. destruct (remove_identical_spec [(0, 0); (0, 1); (1, 0)]) as [N I].
    apply Nat.lt_succ_r. change 3%nat with (length [(0, 0); (0, 1); (1, 0)]). apply NoDup_incl_length; [exact N|]. intros x X. apply I, X.
Qed.
Definition four : list pt2 := [(1, 1); (4, 0); (0, 0); (0, 4)].
Example C66_ex : NoDup four /\ incl four four /\ (4 <= length four)%nat /\ general_position four /\
  List.In (1, 1) four /\ ~ List.In (1, 1) (convex_hull gexact four).
Proof.
  assert (N : NoDup four).
  { unfold four. repeat (constructor; [cbn; intros H; repeat destruct H as [H|H]; try injection H; intros; lra|]). constructor. }
  assert (G : general_position four).
  { intros a b c Ha Hb Hc Nab Nbc Nac. cbn in Ha, Hb, Hc.
    destruct Ha as [<-|[<-|[<-|[<-|[]]]]]; destruct Hb as [<-|[<-|[<-|[<-|[]]]]]; destruct Hc as [<-|[<-|[<-|[<-|[]]]]];
      try congruence; unfold area; cbn [fst snd]; lra. }
  refine (conj N (conj (incl_refl _) (conj _ (conj G (conj _ _))))); [cbn; lia|cbn; tauto|].
  (* an interior point is not a vertex of a strictly convex polygon with the same hull *)
  intros H. pose proof (C66_ccw four four N (incl_refl _) ltac:(cbn; lia) G) as C.
  destruct (C66_hull four) as [_ E]. set (V := convex_hull gexact four) in *. clearbody V.
  (* the edge from (1,1) has all the vertices at its left, hence the whole triangle *)
  destruct C as [L T]. destruct (In_nth V (1, 1) (0, 0) H) as (i & Hi & Ei).
  set (j := if Nat.eq_dec (S i) (length V) then 0%nat else S i).
  assert (Hj : (j < length V)%nat) by (unfold j; destruct (Nat.eq_dec (S i) (length V)); lia).
  set (q := nth j V (0, 0)) in *.
  assert (A : forall v, List.In v V -> 0 <= area (1, 1) q v).
  { intros v Hv. destruct (In_nth V v (0, 0) Hv) as (k & Hk & <-).
    destruct (Nat.eq_dec k i) as [->|Nk]; [rewrite Ei; unfold area; lra|].
    destruct (Nat.eq_dec k j) as [->|Nj]; [unfold q, area; lra|]. rewrite <- Ei. unfold q. unfold j in *. clear q j Ei.
    destruct (Nat.eq_dec (S i) (length V)) as [Ed|Ed].
    - rewrite area_cyc. apply Rlt_le, T; lia.
    - destruct (Nat.lt_ge_cases k i); [rewrite area_cyc, area_cyc|]; apply Rlt_le, T; lia. }
  assert (B : forall z, conv four z -> 0 <= area (1, 1) q z).
  { intros z Z. apply E in Z. unfold area. cbn [fst snd].
    assert (K : 0 <= - (snd q - 1) * fst z + (fst q - 1) * snd z + ((snd q - 1) - (fst q - 1))).
    { apply (conv_half V); [|exact Z]. intros v Hv. specialize (A v Hv). unfold area in A. cbn [fst snd] in A. lra. }
    lra. }
  pose proof (B (4, 0) ltac:(apply conv_vertex; cbn; tauto)) as B1. pose proof (B (0, 0) ltac:(apply conv_vertex; cbn; tauto)) as B2.
  pose proof (B (0, 4) ltac:(apply conv_vertex; cbn; tauto)) as B3. unfold area in B1, B2, B3. cbn [fst snd] in B1, B2, B3.
  assert (Q1 : fst q = 1) by lra. assert (Q2 : snd q = 1) by lra.
  (* q = (1,1): a degenerate triangle *)
  assert (T3 : 0 < area (nth 0 V (0, 0)) (nth 1 V (0, 0)) (nth 2 V (0, 0))) by (apply T; lia).
  assert (Q : nth i V (0, 0) = nth j V (0, 0)) by (rewrite Ei; fold q; apply pt2_eq; cbn; lra).
  unfold j in *. destruct (Nat.eq_dec (S i) (length V)) as [Ed|Ed].
  - assert (0 < area (nth 0 V (0, 0)) (nth 1 V (0, 0)) (nth i V (0, 0))) as X by (apply T; lia). rewrite Q in X. unfold area in X. lra.
  - destruct i as [|i].
    + rewrite Q in T3. unfold area in T3. lra.
    + assert (0 < area (nth 0 V (0, 0)) (nth (S i) V (0, 0)) (nth (S (S i)) V (0, 0))) as X by (apply T; lia). rewrite Q in X. unfold area in X. lra.
Qed.

Print Assumptions C48_partial.
Print Assumptions C66_contains.
