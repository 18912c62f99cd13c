(** * Intersection of convex polygons: exactly the common points *)

From Coq Require Import Reals Lra Psatz Bool List Arith Lia.
Import ListNotations.
From Verif Require Import Itv Arith Tube TubeOps Concrete Geometry PropsGeom PropsGeom2 PropsGeom3 PropsHull PolyArith PropsPolyArith.
Open Scope R_scope.

(** ** Half-planes of a strictly convex polygon *)
(** [z] is at the left of each edge, or on its line *)
Definition inside (vs : list pt2) (z : pt2) : Prop :=
  forall i, (i < length vs)%nat -> 0 <= area (nth i vs (0, 0)) (nth (S i mod length vs) vs (0, 0)) z.

Lemma conv_inside vs z : ccw vs -> conv vs z -> inside vs z.
Proof. intros C H i Hi. exact (area_conv vs C i z Hi H). Qed.
Lemma sign_change (g : nat -> R) m : 0 <= g 1%nat -> g (S m) <= 0 -> (1 <= m)%nat -> exists i, (1 <= i <= m)%nat /\ 0 <= g i /\ g (S i) <= 0.
Proof.
  induction m as [|m IH]; intros H1 H2 L; [lia|]. destruct (Rle_dec 0 (g (S m))) as [P|P].
  - exists (S m). split; [lia|]. auto.
  - destruct (Nat.eq_dec m 0) as [->|N]; [lra|]. destruct IH as (i & Hi & A); [lra|lra|lia|]. exists i. split; [lia|exact A].
Qed.
Lemma conv_bary vs a b c u v w z : conv vs a -> conv vs b -> conv vs c -> 0 <= u -> 0 <= v -> 0 <= w -> u + v + w = 1 ->
  fst z = u * fst a + v * fst b + w * fst c -> snd z = u * snd a + v * snd b + w * snd c -> conv vs z.
Proof.
  intros A B C U V W E Ex Ey. destruct (Req_dec (v + w) 0) as [Z|N].
  - assert (v = 0 /\ w = 0) as [-> ->] by lra. apply (conv_eq vs a z A). destruct z, a; cbn in *. apply pair_eq; rewrite ?Ex, ?Ey; replace u with 1 by lra; ring.
  - apply (conv_seg vs a (mix (w / (v + w)) b c)); [exact A| |].
    + apply conv_mix; auto. split; [apply div_ge0; lra|]. apply (Rmult_le_reg_r (v + w)); [lra|]. unfold Rdiv. rewrite Rmult_assoc, Rinv_l; lra.
    + exists (v + w). split; [lra|]. cbn. rewrite Ex, Ey. replace u with (1 - (v + w)) by lra. split; field; exact N.
Qed.
Lemma conv_triangle vs a b c z : conv vs a -> conv vs b -> conv vs c -> 0 < area a b c ->
  0 <= area a b z -> 0 <= area b c z -> 0 <= area c a z -> conv vs z.
Proof.
  intros A B C T H1 H2 H3. set (t := area a b c) in *.
  assert (S : area b c z + area c a z + area a b z = t) by (unfold t, area; ring).
  apply (conv_bary vs a b c (area b c z / t) (area c a z / t) (area a b z / t)); auto; try (apply div_ge0; lra).
  - replace (area b c z / t + area c a z / t + area a b z / t) with ((area b c z + area c a z + area a b z) / t) by (field; lra). rewrite S. field. lra.
  - apply (Rmult_eq_reg_l t); [|lra]. replace (t * (area b c z / t * fst a + area c a z / t * fst b + area a b z / t * fst c))
      with (area b c z * fst a + area c a z * fst b + area a b z * fst c) by (field; lra). unfold t, area. ring.
  - apply (Rmult_eq_reg_l t); [|lra]. replace (t * (area b c z / t * snd a + area c a z / t * snd b + area a b z / t * snd c))
      with (area b c z * snd a + area c a z * snd b + area a b z * snd c) by (field; lra). unfold t, area. ring.
Qed.
(** a strictly convex polygon is the intersection of its half-planes *)
Theorem inside_conv vs z : ccw vs -> inside vs z -> conv vs z.
Proof.
  intros C H. pose proof C as [L CP]. set (n := length vs) in *. set (V := fun i => nth i vs (0, 0)).
  assert (VC : forall i, (i < n)%nat -> conv vs (V i)) by (intros i Hi; apply conv_vertex, nth_In, Hi).
  destruct (sign_change (fun i => area (V 0%nat) (V i) z) (n - 2)) as (i & Hi & A & B).
  - pose proof (H 0%nat ltac:(lia)) as H0. fold n in H0. rewrite Nat.mod_small in H0 by lia. exact H0.
  - pose proof (H (n - 1)%nat ltac:(lia)) as H0. fold n in H0. replace (S (n - 1)) with n in H0 by lia. rewrite Nat.mod_same in H0 by lia.
    replace (S (n - 2)) with (n - 1)%nat by lia. unfold V, area in *. lra.
  - lia.
  - apply (conv_triangle vs (V 0%nat) (V i) (V (S i)) z); try (apply VC; lia).
    + apply CP; unfold n in *; lia.
    + exact A.
    + pose proof (H i ltac:(lia)) as H0. fold n in H0. rewrite Nat.mod_small in H0 by lia. exact H0.
    + unfold area in *. lra.
Qed.
(** a point of the polygon on the line of an edge is on this edge *)
Lemma on_line (a b z : pt2) : a <> b -> area a b z = 0 -> exists k, fst z = fst a + k * (fst b - fst a) /\ snd z = snd a + k * (snd b - snd a).
Proof.
  intros N H. unfold area in H. destruct (Req_dec (fst b - fst a) 0) as [E0|E0].
  - assert (E1 : snd b - snd a <> 0) by (intro E1; apply N; destruct a, b; cbn in *; apply pair_eq; lra).
    exists ((snd z - snd a) / (snd b - snd a)). split; [|field; exact E1].
    rewrite E0, Rmult_0_r. rewrite E0 in H. assert (fst z - fst a = 0); [|lra].
    destruct (Rmult_integral (snd b - snd a) (fst z - fst a)); [lra|contradiction|assumption].
  - exists ((fst z - fst a) / (fst b - fst a)). split; [field; exact E0|].
    apply Rmult_eq_reg_l with (fst b - fst a); [|exact E0].
    replace ((fst b - fst a) * (snd a + (fst z - fst a) / (fst b - fst a) * (snd b - snd a)))
      with ((fst b - fst a) * snd a + (snd b - snd a) * (fst z - fst a)) by (field; exact E0). lra.
Qed.
Lemma area_ne a b c : 0 < area a b c -> a <> b.
Proof. intros H ->. unfold area in H. lra. Qed.
Lemma zero_on_edge vs z i : ccw vs -> conv vs z -> (i < length vs)%nat ->
  area (nth i vs (0, 0)) (nth (S i mod length vs) vs (0, 0)) z = 0 -> on_seg (nth i vs (0, 0)) (nth (S i mod length vs) vs (0, 0)) z.
Proof.
  intros CC C Hi H. pose proof (nx_lt vs CC i) as Hn. destruct (nx_surj vs CC i Hi) as (h & Hh & Eh).
  set (nx := fun j => (S j mod length vs)%nat) in *. set (V := fun j => nth j vs (0, 0)).
  change (S i mod length vs) with (nx i) in *. change (nx h = i) in Eh.
  assert (P1 : 0 < area (V i) (V (nx i)) (V (nx (nx i)))).
  { apply (area_pos vs CC); [exact Hi|apply (nx_lt vs CC)|apply (nx2 vs CC), Hi|apply (nx_neq vs CC), Hn]. }
  assert (P2 : 0 < area (V h) (V i) (V (nx i))).
  { rewrite <- Eh at 1. apply (area_pos vs CC); [exact Hh|exact Hn| |].
    - rewrite <- Eh. apply (nx2 vs CC), Hh.
    - change (nx i <> nx h). rewrite Eh. apply (nx_neq vs CC), Hi. }
  pose proof (area_conv vs CC (nx i) z Hn C) as Q1. pose proof (area_conv vs CC h z Hh C) as Q2.
  change (0 <= area (V (nx i)) (V (nx (nx i))) z) in Q1. change (0 <= area (V h) (V (nx h)) z) in Q2. rewrite Eh in Q2.
  destruct (on_line (V i) (V (nx i)) z (area_ne _ _ _ P1) H) as (k & Kx & Ky).
  rewrite (area_mix (V (nx i)) (V (nx (nx i))) (V i) (V (nx i)) z k Kx Ky) in Q1. rewrite (area_mix (V h) (V i) (V i) (V (nx i)) z k Kx Ky) in Q2.
  replace (area (V (nx i)) (V (nx (nx i))) (V (nx i))) with 0 in Q1 by (unfold area; ring). replace (area (V h) (V i) (V i)) with 0 in Q2 by (unfold area; ring).
  rewrite <- (area_cyc (V i)) in Q1. exists k. split; [|split; assumption]. split; nra.
Qed.

(** ** Leaving a polygon along a half-line *)
Lemma exit_time (l : list (R * R)) : Forall (fun c => 0 <= fst c) l -> Exists (fun c => snd c < 0) l ->
  exists t, 0 <= t /\ Forall (fun c => 0 <= fst c + t * snd c) l /\ Exists (fun c => snd c < 0 /\ fst c + t * snd c = 0) l.
Proof.
  assert (Q : forall a b, 0 <= a -> b < 0 -> 0 <= a / - b /\ a + a / - b * b = 0).
  { intros a b Ha Hb. split; [apply div_ge0; lra|field; lra]. }
  induction l as [|[a b] l IH]; intros F E; [inversion E|]. apply Forall_cons_iff in F as [Fa F]. cbn [fst snd] in *.
  destruct (Exists_dec (fun c : R * R => snd c < 0) l (fun c => Rlt_dec _ _)) as [El|El].
  - destruct (IH F El) as (t & T & A & B). destruct (Rle_dec 0 (a + t * b)) as [P|P].
    + exists t. refine (conj T (conj _ _)); [constructor; assumption|apply Exists_cons_tl, B].
    + assert (Hb : b < 0) by nra. destruct (Q a b Fa Hb) as [Q1 Q2]. exists (a / - b). refine (conj Q1 (conj _ _)).
      * assert (LT : a / - b <= t).
        { apply (Rmult_le_reg_r (- b)); [lra|]. unfold Rdiv. rewrite Rmult_assoc, Rinv_l; lra. }
        constructor; [cbn; lra|]. rewrite Forall_forall in *. intros c Hc. specialize (F c Hc). specialize (A c Hc). cbn beta in *. nra.
      * apply Exists_cons_hd. cbn. auto.
  - assert (Hb : b < 0) by (inversion E; subst; [assumption|contradiction]). destruct (Q a b Fa Hb) as [Q1 Q2]. exists (a / - b). refine (conj Q1 (conj _ _)).
    + constructor; [cbn; lra|]. rewrite Forall_forall in *. intros c Hc. specialize (F c Hc). cbn beta in *.
      assert (0 <= snd c) by (apply Rnot_lt_le; intro; apply El, Exists_exists; exists c; auto). nra.
    + apply Exists_cons_hd. cbn. auto.
Qed.
Definition shift (w : pt2) (t : R) (d : pt2) : pt2 := (fst w + t * fst d, snd w + t * snd d).
Definition cross (a b d : pt2) : R := (fst b - fst a) * snd d - (snd b - snd a) * fst d.
Lemma area_shift a b w t d : area a b (shift w t d) = area a b w + t * cross a b d.
Proof. unfold area, shift, cross. cbn. ring. Qed.
(** the constraints of a polygon along a half-line *)
Definition cons (vs : list pt2) (w d : pt2) : list (R * R) :=
  map (fun i => (area (nth i vs (0, 0)) (nth (S i mod length vs) vs (0, 0)) w, cross (nth i vs (0, 0)) (nth (S i mod length vs) vs (0, 0)) d)) (seq 0 (length vs)).
Lemma cons_Forall vs w d t : Forall (fun c => 0 <= fst c + t * snd c) (cons vs w d) <-> inside vs (shift w t d).
Proof.
  unfold cons, inside. rewrite Forall_map, Forall_forall. split; intros H i Hi.
  - rewrite area_shift. apply (H i). apply in_seq. lia.
  - cbn. rewrite <- area_shift. apply H. apply in_seq in Hi. lia.
Qed.
Lemma cons_Forall0 vs w d : inside vs w -> Forall (fun c => 0 <= fst c) (cons vs w d).
Proof. intros H. unfold cons. rewrite Forall_map, Forall_forall. intros i Hi. cbn. apply H. apply in_seq in Hi. lia. Qed.
(** moving in the direction [d] from a point of [Q], a point of [Q] on an edge that is crossed, or the time [1] *)
Lemma exit_one Q w d : ccw Q -> conv Q w ->
  exists t, 0 <= t <= 1 /\ conv Q (shift w t d) /\
    (t = 1 \/ exists j, (j < length Q)%nat /\ cross (nth j Q (0, 0)) (nth (S j mod length Q) Q (0, 0)) d < 0 /\
       on_seg (nth j Q (0, 0)) (nth (S j mod length Q) Q (0, 0)) (shift w t d)).
Proof.
  intros CQ HQ. pose proof (conv_inside Q w CQ HQ) as IQ.
  destruct (exit_time ((1, -1) :: cons Q w d)) as (t & T & F & E).
  - constructor; [cbn; lra|apply cons_Forall0, IQ].
  - apply Exists_cons_hd. cbn. lra.
  - apply Forall_cons_iff in F as [F1 F]. cbn in F1. apply cons_Forall in F.
    assert (C : conv Q (shift w t d)) by (apply inside_conv; assumption).
    exists t. refine (conj _ (conj C _)); [lra|]. inversion E as [? ? [_ E1]|? ? E1]; subst.
    + left. cbn in E1. lra.
    + right. apply Exists_exists in E1 as (c & Hc & N & Z). unfold cons in Hc. apply in_map_iff in Hc as (j & <- & Hj). cbn [fst snd] in *.
      apply in_seq in Hj. exists j. refine (conj _ (conj N _)); [lia|]. apply zero_on_edge; auto; [lia|]. rewrite area_shift. exact Z.
Qed.
(** ... from a common point, in a direction that leaves [P], a common point on an edge of [P] or of [Q] *)
Lemma exit_both P Q w d T : ccw P -> ccw Q -> conv P w -> conv Q w -> 0 <= T -> ~ conv P (shift w T d) ->
  exists t, 0 <= t /\ conv P (shift w t d) /\ conv Q (shift w t d) /\ (on_boundary P (shift w t d) \/ on_boundary Q (shift w t d)).
Proof.
  intros CP CQ HP HQ T0 NT.
  destruct (exit_time (cons P w d ++ cons Q w d)) as (t & Ht & F & E).
  - apply Forall_app. split; apply cons_Forall0, conv_inside; assumption.
  - apply Exists_app. left. destruct (Exists_dec (fun c : R * R => snd c < 0) (cons P w d) (fun c => Rlt_dec _ _)) as [E|E]; [exact E|exfalso].
    apply NT. apply inside_conv; [exact CP|]. apply cons_Forall. pose proof (cons_Forall0 P w d (conv_inside P w CP HP)) as F.
    rewrite Forall_forall in *. intros c Hc. specialize (F c Hc). cbn beta in *.
    assert (0 <= snd c) by (apply Rnot_lt_le; intro; apply E, Exists_exists; exists c; auto). nra.
  - apply Forall_app in F as [FP FQ]. apply cons_Forall in FP, FQ.
    assert (C1 : conv P (shift w t d)) by (apply inside_conv; assumption). assert (C2 : conv Q (shift w t d)) by (apply inside_conv; assumption).
    exists t. refine (conj Ht (conj C1 (conj C2 _))).
    apply Exists_app in E as [E|E]; [left|right]; apply Exists_exists in E as (c & Hc & N & Z); unfold cons in Hc;
      apply in_map_iff in Hc as (j & <- & Hj); cbn [fst snd] in *; apply in_seq in Hj; exists j; (split; [lia|]);
      apply zero_on_edge; auto; try lia; rewrite area_shift; exact Z.
Qed.
Lemma leaves P w s : ccw P -> conv P w -> (s = 1 \/ s = -1) -> exists T, 0 <= T /\ ~ conv P (shift w T (s, 0)).
Proof.
  intros CP HP HS. destruct (box_spec P) as (xl & xu & yl & yu & EB & AB & _).
  { intros ->. destruct CP as [H _]. cbn in H. lia. }
  pose proof (conv_box P w xl xu yl yu AB HP) as [B _].
  exists (xu - xl + 1). split; [lra|]. intros C. pose proof (conv_box P _ xl xu yl yu AB C) as [B' _]. cbn in B'. destruct HS as [->| ->]; lra.
Qed.

(** ** The points of an intersection *)
(** crossing of two edges with different directions *)
Definition crossing (P Q : list pt2) (z : pt2) : Prop :=
  exists i j, (i < length P)%nat /\ (j < length Q)%nat /\
    det (nth i P (0, 0)) (nth (S i mod length P) P (0, 0)) (nth j Q (0, 0)) (nth (S j mod length Q) Q (0, 0)) <> 0 /\
    on_seg (nth i P (0, 0)) (nth (S i mod length P) P (0, 0)) z /\ on_seg (nth j Q (0, 0)) (nth (S j mod length Q) Q (0, 0)) z.
(** a convex set that contains the ends of a segment that are in [Q], and the crossings of the segment with edges of [Q],
    contains the points of the segment that are in [Q] *)
Lemma seg_common Q (T : pt2 -> Prop) a b w : ccw Q -> convex T -> (conv Q a -> T a) -> (conv Q b -> T b) ->
  (forall z j, (j < length Q)%nat -> det a b (nth j Q (0, 0)) (nth (S j mod length Q) Q (0, 0)) <> 0 -> on_seg a b z ->
     on_seg (nth j Q (0, 0)) (nth (S j mod length Q) Q (0, 0)) z -> T z) ->
  on_seg a b w -> conv Q w -> T w.
Proof.
  intros CQ CT TA TB TX HS HQ. destruct HS as (k & K & Wx & Wy).
  assert (HALF : forall e s, (e = b /\ s = 1 - k \/ e = a /\ s = - k) ->
    exists t, 0 <= t <= 1 /\ T (shift w t (fst e - fst w, snd e - snd w))).
  { intros e s He. set (d := (fst e - fst w, snd e - snd w)).
    destruct (exit_one Q w d CQ HQ) as (t & Ht & C & [->|(j & Hj & N & SG)]).
    - exists 1. split; [lra|]. assert (EE : shift w 1 d = e) by (unfold shift, d; destruct e; cbn; apply pair_eq; ring).
      rewrite EE in *. destruct He as [[-> _]|[-> _]]; auto.
    - exists t. split; [exact Ht|].
      assert (Dx : fst d = s * (fst b - fst a) /\ snd d = s * (snd b - snd a)).
      { unfold d. cbn. rewrite Wx, Wy. destruct He as [[-> ->]|[-> ->]]; split; ring. }
      destruct Dx as [Dx Dy]. apply (TX _ j Hj); [| |exact SG].
      + intros D0. assert (Z : cross (nth j Q (0, 0)) (nth (S j mod length Q) Q (0, 0)) d = - s * det a b (nth j Q (0, 0)) (nth (S j mod length Q) Q (0, 0))).
        { unfold cross, det. rewrite Dx, Dy. ring. } rewrite D0 in Z. lra.
      + exists (k + t * s). split; [destruct He as [[_ ->]|[_ ->]]; nra|]. unfold shift. cbn [fst snd]. rewrite Dx, Dy, Wx, Wy. split; ring. }
  destruct (HALF b (1 - k)) as (t1 & T1 & H1); [left; auto|]. destruct (HALF a (- k)) as (t2 & T2 & H2); [right; auto|].
  set (z1 := shift w t1 _) in *. set (z2 := shift w t2 _) in *.
  (* w is between z2 and z1 *)
  assert (Z1 : fst z1 = fst a + (k + t1 * (1 - k)) * (fst b - fst a) /\ snd z1 = snd a + (k + t1 * (1 - k)) * (snd b - snd a)).
  { unfold z1, shift. cbn. rewrite Wx, Wy. split; ring. }
  assert (Z2 : fst z2 = fst a + (k - t2 * k) * (fst b - fst a) /\ snd z2 = snd a + (k - t2 * k) * (snd b - snd a)).
  { unfold z2, shift. cbn. rewrite Wx, Wy. split; ring. }
  destruct (seg_param (k - t2 * k) (k + t1 * (1 - k)) k) as (m & M & Em); [split; nra|].
  replace w with (mix m z2 z1); [apply CT; assumption|].
  unfold mix. destruct w as [wx wy]. cbn [fst snd] in *. destruct Z1 as [-> ->], Z2 as [-> ->]. rewrite Wx, Wy.
  set (u := k - t2 * k) in *. set (v := k + t1 * (1 - k)) in *. clearbody u v. rewrite Em. apply pair_eq; ring.
Qed.
Lemma edge_common P Q (T : pt2 -> Prop) w : ccw P -> ccw Q -> convex T ->
  (forall v, List.In v P -> conv Q v -> T v) -> (forall z, crossing P Q z -> T z) -> on_boundary P w -> conv Q w -> T w.
Proof.
  intros CP CQ CT TP TX (i & Hi & HS) HQ. refine (seg_common Q T _ _ w CQ CT _ _ _ HS HQ).
  - apply TP, nth_In, Hi.
  - apply TP, nth_In, (nx_lt P CP).
  - intros z j Hj D S1 S2. apply TX. exists i, j. auto.
Qed.
Lemma det_swap a b c d : det a b c d = - det c d a b.
Proof. unfold det. ring. Qed.
Lemma crossing_sym P Q z : crossing P Q z -> crossing Q P z.
Proof.
  intros (i & j & Hi & Hj & D & S1 & S2). exists j, i. refine (conj Hj (conj Hi (conj _ (conj S2 S1)))). intros E. apply D. unfold det in *. lra.
Qed.
Theorem common_points P Q (T : pt2 -> Prop) : ccw P -> ccw Q -> convex T ->
  (forall v, List.In v P -> conv Q v -> T v) -> (forall v, List.In v Q -> conv P v -> T v) -> (forall z, crossing P Q z -> T z) ->
  forall z, conv P z -> conv Q z -> T z.
Proof.
  intros CP CQ CT TP TQ TX z HP HQ.
  assert (B : forall w, conv P w -> conv Q w -> on_boundary P w \/ on_boundary Q w -> T w).
  { intros w WP WQ [W|W].
    - apply (edge_common P Q T w CP CQ CT TP TX W WQ).
    - apply (edge_common Q P T w CQ CP CT TQ); auto. intros u U. apply TX, crossing_sym, U. }
  destruct (leaves P z 1 CP HP ltac:(left; reflexivity)) as (T1 & P1 & N1). destruct (leaves P z (-1) CP HP ltac:(right; reflexivity)) as (T2 & P2 & N2).
  destruct (exit_both P Q z (1, 0) T1 CP CQ HP HQ P1 N1) as (t1 & Ht1 & A1 & B1 & O1).
  destruct (exit_both P Q z (-1, 0) T2 CP CQ HP HQ P2 N2) as (t2 & Ht2 & A2 & B2 & O2).
  pose proof (B _ A1 B1 O1) as G1. pose proof (B _ A2 B2 O2) as G2.
  destruct (seg_param (fst z - t2) (fst z + t1) (fst z)) as (m & M & Em); [lra|].
  replace z with (mix m (shift z t2 (-1, 0)) (shift z t1 (1, 0))); [apply CT; assumption|].
  unfold mix, shift. destruct z as [x y]. cbn [fst snd] in *. apply pair_eq; [|ring].
  transitivity (x - t2 + m * (x + t1 - (x - t2))); [ring|symmetry; exact Em].
Qed.

(** ** Edges made of points, with exact operators *)
Lemma I2_same x : I2 (Rmin x x) (Rmax x x) = pt x.
Proof. rewrite Rmin_left, Rmax_left by lra. reflexivity. Qed.
Lemma v_eqb_f (p q : pt2) : p <> q -> v_eqb p q = false.
Proof.
  intros N. unfold v_eqb. destruct (Reqb (fst p) (fst q)) eqn:E1; [|reflexivity]. destruct (Reqb (snd p) (snd q)) eqn:E2; [|reflexivity].
  apply Reqb_true in E1, E2. exfalso. apply N. destruct p, q; cbn in *. apply pair_eq; assumption.
Qed.
Lemma ne_cases (p q : pt2) : p <> q -> fst p <> fst q \/ snd p <> snd q.
Proof.
  intros N. destruct (Req_dec (fst p) (fst q)) as [E|E]; [|auto]. right. intros E'. apply N. destruct p, q; cbn in *. apply pair_eq; assumption.
Qed.
(** lines with different directions: the projection is their common point *)
Lemma proj_det p1 p2 q1 q2 : p1 <> p2 -> q1 <> q2 -> det p1 p2 q1 q2 <> 0 ->
  exists c, proj_intersection gexact (tvec p1, tvec p2) (tvec q1, tvec q2) = tvec c /\ area p1 p2 c = 0 /\ area q1 q2 c = 0.
Proof.
  intros Np Nq D. unfold proj_intersection, proj0. rewrite !degenerated_pts, (v_eqb_f p1 p2 Np), (v_eqb_f q1 q2 Nq), !vertical_pts, !horizontal_pts.
  cbn [is_no negb andb]. rewrite !e_box_pts, !tvec_some. cbn [fst snd].
  cbn [gexact g_ar g_div iadd isub imul exact]. rewrite ?xsub_pt.
  destruct (Reqb (fst q1) (fst q2)) eqn:Vq; cbn [is_no negb].
  { apply Reqb_true in Vq. rewrite Vq, I2_same. destruct (Reqb (fst p1) (fst p2)) eqn:Vp; cbn [is_no negb].
    { apply Reqb_true in Vp. exfalso. apply D. unfold det. rewrite Vp, Vq. ring. }
    apply Reqb_false in Vp. destruct (Reqb (snd p1) (snd p2)) eqn:Hp; cbn [is_no negb].
    { apply Reqb_true in Hp. rewrite Hp, I2_same, tpt_pts. exists (fst q2, snd p2). refine (conj eq_refl _). unfold area. cbn [fst snd]. rewrite Hp, Vq. split; ring. }
    rewrite xdiv_pt, xsub_pt, xmul_pt, xadd_pt, tpt_pts by lra. eexists. refine (conj eq_refl _). unfold area. cbn [fst snd]. rewrite Vq. split; field; lra. }
  apply Reqb_false in Vq. destruct (Reqb (snd q1) (snd q2)) eqn:Hq; cbn [is_no negb].
  { apply Reqb_true in Hq. rewrite Hq, I2_same. destruct (Reqb (snd p1) (snd p2)) eqn:Hp; cbn [is_no negb].
    { apply Reqb_true in Hp. exfalso. apply D. unfold det. rewrite Hp, Hq. ring. }
    apply Reqb_false in Hp. destruct (Reqb (fst p1) (fst p2)) eqn:Vp; cbn [is_no negb].
    { apply Reqb_true in Vp. rewrite Vp, I2_same, tpt_pts. exists (fst p2, snd q2). refine (conj eq_refl _). unfold area. cbn [fst snd]. rewrite Hq, Vp. split; ring. }
    apply Reqb_false in Vp. assert (S0 : (snd p2 - snd p1) / (fst p2 - fst p1) <> 0).
    { unfold Rdiv. apply Rmult_integral_contrapositive_currified; [lra|apply Rinv_neq_0_compat; lra]. }
    rewrite (xdiv_pt (snd p2 - snd p1)), xsub_pt, xdiv_pt, xadd_pt, tpt_pts by (exact S0 || lra).
    eexists. refine (conj eq_refl _). unfold area. cbn [fst snd]. rewrite Hq. split; field; split; lra. }
  apply Reqb_false in Hq. rewrite !xmul_pt, !xsub_pt, !xmul_pt, !xsub_pt.
  set (c := (fst p1 - fst p2) * (snd q1 - snd q2) - (snd p1 - snd p2) * (fst q1 - fst q2)).
  assert (C : c <> 0) by (intros C; apply D; unfold det, c in *; lra).
  rewrite !xdiv_pt, tpt_pts by exact C. eexists. refine (conj eq_refl _). unfold area. cbn [fst snd].
  split; (apply (Rmult_eq_reg_l c); [|exact C]); field_simplify; try exact C; unfold c; ring.
Qed.
(** a point of the line, in the box of the edge, is on the edge *)
Lemma line_box_seg p q c : p <> q -> area p q c = 0 -> Rmin (fst p) (fst q) <= fst c <= Rmax (fst p) (fst q) ->
  Rmin (snd p) (snd q) <= snd c <= Rmax (snd p) (snd q) -> on_seg p q c.
Proof.
  intros N A Bx By. destruct (on_line p q c N A) as (k & Kx & Ky). exists k. refine (conj _ (conj Kx Ky)).
  assert (X : forall a b t, a <> b -> Rmin a b <= a + t * (b - a) <= Rmax a b -> 0 <= t <= 1).
  { intros a b t Nab. unfold Rmin, Rmax. destruct (Rle_dec a b) as [L|L]; intros [I J]; split; apply Rnot_lt_le; intros K; nra. }
  destruct (ne_cases p q N) as [M|M]; [apply (X (fst p) (fst q))|apply (X (snd p) (snd q))]; auto; congruence.
Qed.
Lemma seg_same p q : on_seg p q p /\ on_seg p q q.
Proof. split; [exists 0|exists 1]; lra. Qed.
Lemma inter_pt2 a l u l' u' : inter (inter (pt a) (I2 l u)) (I2 l' u') = pt a /\ l <= a <= u /\ l' <= a <= u' \/ inter (inter (pt a) (I2 l u)) (I2 l' u') = Emp.
Proof.
  rewrite inter_pt. destruct (Rleb l a && Rleb a u) eqn:E1; [|right; reflexivity]. rewrite inter_pt.
  destruct (Rleb l' a && Rleb a u') eqn:E2; [left|right; reflexivity]. apply andb_prop in E1 as [E1 E1'], E2 as [E2 E2'].
  apply Rleb_true in E1, E1', E2, E2'. auto.
Qed.
Lemma e_inter_det p1 p2 q1 q2 : p1 <> p2 -> q1 <> q2 -> det p1 p2 q1 q2 <> 0 ->
  parallel gexact (tvec p1, tvec p2) (tvec q1, tvec q2) = NO /\
  (e_inter gexact (tvec p1, tvec p2) (tvec q1, tvec q2) = t_none \/
   exists c, e_inter gexact (tvec p1, tvec p2) (tvec q1, tvec q2) = tvec c /\ on_seg p1 p2 c /\ on_seg q1 q2 c).
Proof.
  intros Np Nq D. destruct (proj_det p1 p2 q1 q2 Np Nq D) as (c & E & A1 & A2). split.
  - unfold parallel. rewrite E, !vertical_pts, !horizontal_pts.
    destruct (Reqb (fst p1) (fst p2)) eqn:V1, (Reqb (fst q1) (fst q2)) eqn:V2; cbn [is_yes andb];
      try (exfalso; apply Reqb_true in V1, V2; apply D; unfold det; rewrite V1, V2; ring);
      (destruct (Reqb (snd p1) (snd p2)) eqn:H1, (Reqb (snd q1) (snd q2)) eqn:H2; cbn [is_yes andb];
      try (exfalso; apply Reqb_true in H1, H2; apply D; unfold det; rewrite H1, H2; ring); reflexivity).
  - unfold e_inter. rewrite E, !e_box_pts, tvec_some. cbn [fst snd].
    destruct (inter_pt2 (fst c) (Rmin (fst p1) (fst p2)) (Rmax (fst p1) (fst p2)) (Rmin (fst q1) (fst q2)) (Rmax (fst q1) (fst q2))) as [(Ex & Bx & Bx')|Ex]; rewrite Ex.
    2: { left. unfold tpt. cbn [is_empty]. destruct (is_empty _); reflexivity. }
    destruct (inter_pt2 (snd c) (Rmin (snd p1) (snd p2)) (Rmax (snd p1) (snd p2)) (Rmin (snd q1) (snd q2)) (Rmax (snd q1) (snd q2))) as [(Ey & By & By')|Ey]; rewrite Ey.
    2: { left. reflexivity. }
    right. exists c. rewrite tpt_pts. refine (conj _ (conj _ _)); [destruct c; reflexivity| |]; apply line_box_seg; auto.
Qed.
Lemma e_inter_par p1 p2 q1 q2 : p1 <> p2 -> q1 <> q2 -> det p1 p2 q1 q2 = 0 ->
  parallel gexact (tvec p1, tvec p2) (tvec q1, tvec q2) = YES \/ e_inter gexact (tvec p1, tvec p2) (tvec q1, tvec q2) = t_none.
Proof.
  intros Np Nq D. destruct (Req_dec (fst q1) (fst q2)) as [V|V].
  - left. assert (fst p1 = fst p2).
    { destruct (ne_cases q1 q2 Nq) as [H|H]; [contradiction|]. unfold det in D. rewrite V in D.
      destruct (Rmult_integral (fst p2 - fst p1) (snd q2 - snd q1)); lra. }
    unfold parallel. rewrite !vertical_pts, H, V, !Reqb_refl. reflexivity.
  - destruct (Req_dec (snd q1) (snd q2)) as [Hq|Hq].
    + left. assert (snd p1 = snd p2).
      { unfold det in D. rewrite Hq in D. destruct (Rmult_integral (snd p2 - snd p1) (fst q2 - fst q1)); lra. }
      unfold parallel. rewrite !vertical_pts, !horizontal_pts, H, Hq, !Reqb_refl. destruct (_ && _); reflexivity.
    + right. unfold e_inter. rewrite <- !tedge_pts, (parallel_proj p1 p2 q1 q2 (v_eqb_f _ _ Np) V Hq D). reflexivity.
Qed.
(** ThickEdge::contains on points *)
Lemma e_contains_pts p1 p2 z : p1 <> p2 -> (is_no (e_contains gexact (tvec p1, tvec p2) (tvec z)) = false <-> on_seg p1 p2 z).
Proof.
  intros N. unfold e_contains, aligned. rewrite !tvec_some. cbn [fst snd gexact g_ar g_sqr iadd isub imul exact].
  rewrite !xsub_pt, !xmul_pt, !xsub_pt, !xsqr_pt, !xadd_pt, hull_pt, itv_eqb_pt.
  set (cp := (fst p1 - fst z) * (snd p2 - snd z) - (snd p1 - snd z) * (fst p2 - fst z)).
  set (k1 := (fst p2 - fst p1) * (fst p2 - fst z) + (snd p2 - snd p1) * (snd p2 - snd z)).
  set (k2 := (fst p2 - fst p1) * (fst p2 - fst p1) + (snd p2 - snd p1) * (snd p2 - snd p1)).
  assert (P2 : 0 < k2).
  { pose proof (Rle_0_sqr (fst p2 - fst p1)) as A1. pose proof (Rle_0_sqr (snd p2 - snd p1)) as A2. unfold k2.
    destruct (ne_cases p1 p2 N) as [M|M].
    - pose proof (Rsqr_pos_lt (fst p2 - fst p1) ltac:(lra)) as A3. unfold Rsqr in *. lra.
    - pose proof (Rsqr_pos_lt (snd p2 - snd p1) ltac:(lra)) as A3. unfold Rsqr in *. lra. }
  assert (EA : area p1 p2 z = cp) by (unfold area, cp; ring).
  destruct (Reqb cp 0) eqn:E0.
  - apply Reqb_true in E0. cbn [is_no]. rewrite E0 in EA. destruct (on_line p1 p2 z N EA) as (k & Kx & Ky).
    assert (Ek : k1 = (1 - k) * k2) by (unfold k1, k2; rewrite Kx, Ky; ring).
    destruct (is_subset (pt k1) (I2 (Rmin k2 0) (Rmax k2 0))) eqn:S; cbn [is_no].
    + split; [intros _|reflexivity]. apply is_subset_sub in S. assert (I1 : In k1 (I2 (Rmin k2 0) (Rmax k2 0))) by (apply S, In_pt; reflexivity).
      rewrite Rmin_right, Rmax_left in I1 by lra. cbn in I1. exists k. refine (conj _ (conj Kx Ky)). split; apply Rnot_lt_le; intros L; nra.
    + split; [discriminate|]. intros (l & L & Lx & Ly). exfalso.
      assert (Ek' : k1 = (1 - l) * k2) by (unfold k1, k2; rewrite Lx, Ly; ring).
      assert (X : is_subset (pt k1) (I2 (Rmin k2 0) (Rmax k2 0)) = true); [|congruence]. apply is_subset_spec; [cbn; lra|].
      intros x Hx. apply In_pt in Hx as ->. rewrite Rmin_right, Rmax_left by lra. cbn. nra.
  - apply Reqb_false in E0. replace (contains (pt cp) 0) with false.
    2: { symmetry. apply contains_false. intros I0. apply In_pt in I0. congruence. }
    cbn [is_no]. split; [discriminate|]. intros S. apply area_on in S. congruence.
Qed.
(** the points added for two edges are common points, and their crossing is one of them *)
Lemma edge_points_sound p1 p2 q1 q2 t : p1 <> p2 -> q1 <> q2 -> List.In t (edge_points gexact (tvec p1, tvec p2) (tvec q1, tvec q2)) ->
  exists c, t = tvec c /\ on_seg p1 p2 c /\ on_seg q1 q2 c.
Proof.
  intros Np Nq. unfold edge_points. destruct (Req_dec (det p1 p2 q1 q2) 0) as [D|D].
  - destruct (e_inter_par p1 p2 q1 q2 Np Nq D) as [->| ->]; [|change (t_empty t_none) with true; intros []].
    destruct (t_empty _); [intros H; destruct H|]. cbn [is_no negb fst snd]. intros H.
    assert (K : forall a b v, a <> b -> List.In t (if is_no (e_contains gexact (tvec a, tvec b) (tvec v)) then [] else [tvec v]) -> t = tvec v /\ on_seg a b v).
    { intros a b v Nab. intros X. destruct (is_no (e_contains gexact (tvec a, tvec b) (tvec v))) eqn:E; cbn [List.In] in X; [destruct X|]. destruct X as [<-|X]; [|destruct X]. split; [reflexivity|]. apply e_contains_pts; assumption. }
    destruct (seg_same p1 p2) as [P1 P2], (seg_same q1 q2) as [Q1 Q2].
    apply in_app_or in H as [H|H]; [apply K in H as [-> H]; auto; exists q1; auto|].
    apply in_app_or in H as [H|H]; [apply K in H as [-> H]; auto; exists q2; auto|].
    apply in_app_or in H as [H|H]; [apply K in H as [-> H]; auto; exists p1; auto|apply K in H as [-> H]; auto; exists p2; auto].
  - destruct (e_inter_det p1 p2 q1 q2 Np Nq D) as [-> [->|(c & -> & S1 & S2)]]; [change (t_empty t_none) with true; intros []|].
    change (t_empty (tvec c)) with false. cbn [is_no negb]. intros [<-|[]]. exists c. auto.
Qed.
Lemma edge_points_complete p1 p2 q1 q2 z : p1 <> p2 -> q1 <> q2 -> det p1 p2 q1 q2 <> 0 -> on_seg p1 p2 z -> on_seg q1 q2 z ->
  List.In (tvec z) (edge_points gexact (tvec p1, tvec p2) (tvec q1, tvec q2)).
Proof.
  intros Np Nq D Z1 Z2.
  pose proof (C65_intersection_partial gexact gexact_ok (tvec p1) (tvec p2) (tvec q1) (tvec q2) p1 p2 q1 q2 z
    (ptin_tvec p1) (ptin_tvec p2) (ptin_tvec q1) (ptin_tvec q2) Z1 Z2 (or_introl D)) as Z. rewrite !tedge_pts in Z.
  unfold edge_points. destruct (e_inter_det p1 p2 q1 q2 Np Nq D) as [-> [E|(c & E & S1 & S2)]]; rewrite E in *; [destruct Z as [[] _]|].
  apply ptin_tvec_iff in Z as ->. left. reflexivity.
Qed.

(** ** C83 *)
Lemma ccw_edge vs i : ccw vs -> (i < length vs)%nat -> nth i vs (0, 0) <> nth (S i mod length vs) vs (0, 0).
Proof.
  intros CC Hi. assert (P1 : 0 < area (nth i vs (0, 0)) (nth (S i mod length vs) vs (0, 0)) (nth (S (S i mod length vs) mod length vs) vs (0, 0))).
  { apply (area_pos vs CC); [exact Hi|apply (nx_lt vs CC)|apply (nx2 vs CC), Hi|apply (nx_neq vs CC), (nx_lt vs CC)]. }
  exact (area_ne _ _ _ P1).
Qed.
Lemma contains_not_no vs z : ccw vs -> (negb (is_no (poly_contains gexact vs (tvec z))) = true <-> conv vs z).
Proof.
  intros C. destruct (C47_point_partial vs z C) as (M & Y & N). destruct (poly_contains gexact vs (tvec z)); cbn.
  - split; [intros _; apply Y; reflexivity|reflexivity].
  - split; [discriminate|]. intros H. exfalso. apply (proj1 N eq_refl), H.
  - split; [intros _|reflexivity]. apply (boundary_conv vs C), M. reflexivity.
Qed.
(** the points of which the intersection is made *)
Lemma inter_pts_spec P Q t : ccw P -> ccw Q -> List.In t (inter_thickpoints gexact P Q) ->
  exists c, t = tvec c /\ conv P c /\ conv Q c.
Proof.
  intros CP CQ H. unfold inter_thickpoints in H. apply in_app_or in H as [H|H]; [|apply in_app_or in H as [H|H]].
  - apply filter_In in H as [H K]. apply in_map_iff in H as (v & <- & Hv). exists v. refine (conj eq_refl (conj (conv_vertex _ _ Hv) _)). apply contains_not_no; assumption.
  - apply filter_In in H as [H K]. apply in_map_iff in H as (v & <- & Hv). exists v. refine (conj eq_refl (conj _ (conv_vertex _ _ Hv))). apply contains_not_no; assumption.
  - apply in_flat_map in H as (e1 & H1 & H). apply in_flat_map in H as (e2 & H2 & H). rewrite edges_pairs in H1, H2.
    apply in_map_iff in H1 as (u & <- & H1). apply in_map_iff in H2 as (w & <- & H2).
    destruct (pairs_In P u H1) as (i & Hi & ->). destruct (pairs_In Q w H2) as (j & Hj & ->). cbn [fst snd] in H.
    destruct (edge_points_sound _ _ _ _ t (ccw_edge P i CP Hi) (ccw_edge Q j CQ Hj) H) as (c & -> & S1 & S2).
    exists c. refine (conj eq_refl (conj _ _)); apply boundary_conv; auto; [exists i|exists j]; auto.
Qed.
Lemma pairs_mem vs i : (i < length vs)%nat -> List.In (tvec (nth i vs (0, 0)), tvec (nth (S i mod length vs) vs (0, 0))) (edges vs).
Proof.
  intros H. rewrite edges_pairs. apply in_map_iff. exists (nth i vs (0, 0), nth (S i mod length vs) vs (0, 0)). split; [reflexivity|].
  apply (nth_error_In _ i). apply PropsGeom3.pairs_nth, H.
Qed.
(** The intersection of two strictly convex polygons is made of the points that are in both. *)
Theorem C83_inter : forall mid P Q, ccw P -> ccw Q ->
  forall z, conv (poly_inter gexact mid P Q) z <-> conv P z /\ conv Q z.
Proof.
  intros mid P Q CP CQ z. unfold poly_inter.
  assert (HS : Forall solid (inter_thickpoints gexact P Q)).
  { apply Forall_forall. intros t Ht. destruct (inter_pts_spec P Q t CP CQ Ht) as (c & -> & _). left. exists c. reflexivity. }
  rewrite (C82_thick_partial mid _ HS). split.
  - revert z. apply (hull_min _ (fun z => conv P z /\ conv Q z)).
    + intros p q k [A B] [C D] K. split; apply conv_mix; assumption.
    + intros z (t & Ht & Hz). destruct (inter_pts_spec P Q t CP CQ Ht) as (c & -> & A). apply ptin_tvec_iff in Hz as ->. exact A.
  - intros [A B]. revert z A B. apply common_points; auto using hull_convex.
    + intros v Hv C. apply hull_base. exists (tvec v). split; [|apply ptin_tvec]. unfold inter_thickpoints. apply in_or_app. left.
      apply filter_In. split; [apply in_map, Hv|]. apply contains_not_no; assumption.
    + intros v Hv C. apply hull_base. exists (tvec v). split; [|apply ptin_tvec]. unfold inter_thickpoints. apply in_or_app. right. apply in_or_app. left.
      apply filter_In. split; [apply in_map, Hv|]. apply contains_not_no; assumption.
    + intros z (i & j & Hi & Hj & D & S1 & S2). apply hull_base. exists (tvec z). split; [|apply ptin_tvec].
      unfold inter_thickpoints. apply in_or_app. right. apply in_or_app. right. apply in_flat_map. eexists. split; [apply (pairs_mem P i Hi)|].
      apply in_flat_map. eexists. split; [apply (pairs_mem Q j Hj)|]. apply edge_points_complete; auto using ccw_edge.
Qed.

(** *** A box that is not flat *)
Lemma box_poly_ccw a b c d : a < b -> c < d -> ccw (poly_of_box gexact (I2 a b, I2 c d)).
Proof.
  intros Hab Hcd. unfold poly_of_box. cbn [box_corners I2].
  apply (C66_ccw _ [(a, c); (b, c); (b, d); (a, d)]); [| |cbn; lia|].
  - assert (Z : forall x y x' y' : R, (x', y') = (x, y) -> x = x' /\ y = y') by (intros x y x' y' E; injection E; auto).
    apply NoDup_cons; [intros [H|[H|[H|[]]]]; apply Z in H; lra|]. apply NoDup_cons; [intros [H|[H|[]]]; apply Z in H; lra|].
    apply NoDup_cons; [intros [H|[]]; apply Z in H; lra|]. apply NoDup_cons; [intros []|apply NoDup_nil].
  - apply incl_refl.
  - intros u v w Hu Hv Hw N1 N2 N3. cbn [List.In] in Hu, Hv, Hw.
    assert (X : (b - a) * (d - c) <> 0) by (apply Rmult_integral_contrapositive_currified; lra).
    destruct Hu as [<-|[<-|[<-|[<-|[]]]]], Hv as [<-|[<-|[<-|[<-|[]]]]]; try contradiction;
      destruct Hw as [<-|[<-|[<-|[<-|[]]]]]; try contradiction; unfold area; cbn [fst snd]; intros E; apply X; lra.
Qed.
Theorem C83_box : forall mid a b c d P, a < b -> c < d -> ccw P ->
  forall z, conv (box_inter gexact mid (I2 a b, I2 c d) P) z <-> ptin z (I2 a b, I2 c d) /\ conv P z.
Proof.
  intros mid a b c d P Hab Hcd CP z. unfold box_inter. rewrite (C83_inter mid P _ CP (box_poly_ccw a b c d Hab Hcd)).
  rewrite C82_box; [tauto|]. exists a, b, c, d. repeat split; lra.
Qed.

(** *** Flat boxes *)
Lemma flat_points P q1 q2 t : ccw P -> q1 <> q2 -> List.In t (inter_thickpoints gexact P [q1; q2]) -> exists c, t = tvec c.
Proof.
  intros CP Nq H. unfold inter_thickpoints in H. apply in_app_or in H as [H|H]; [|apply in_app_or in H as [H|H]].
  - apply filter_In in H as [H _]. apply in_map_iff in H as (v & <- & _). eexists. reflexivity.
  - apply filter_In in H as [H _]. apply in_map_iff in H as (v & <- & _). eexists. reflexivity.
  - apply in_flat_map in H as (e1 & H1 & H). apply in_flat_map in H as (e2 & H2 & H). rewrite edges_pairs in H1.
    apply in_map_iff in H1 as (u & <- & H1). destruct (pairs_In P u H1) as (i & Hi & ->). cbn [fst snd] in H.
    cbn in H2. destruct H2 as [<-|[<-|[]]]; [|apply not_eq_sym in Nq];
      destruct (edge_points_sound _ _ _ _ t (ccw_edge P i CP Hi) Nq H) as (c & -> & _); eexists; reflexivity.
Qed.
(** The intersection of a strictly convex polygon with a segment loses no common point. *)
Theorem C83_segment_partial : forall mid P q1 q2, ccw P -> q1 <> q2 ->
  forall z, conv P z -> on_seg q1 q2 z -> conv (poly_inter gexact mid P [q1; q2]) z.
Proof.
  intros mid P q1 q2 CP Nq z HP HS. unfold poly_inter.
  assert (SO : Forall solid (inter_thickpoints gexact P [q1; q2])).
  { apply Forall_forall. intros t Ht. destruct (flat_points P q1 q2 t CP Nq Ht) as (c & ->). left. exists c. reflexivity. }
  apply (C82_thick_partial mid _ SO).
  assert (E : forall v, List.In v [q1; q2] -> conv P v -> hull_of (fun w => exists p, List.In p (inter_thickpoints gexact P [q1; q2]) /\ ptin w p) v).
  { intros v Hv C. apply hull_base. exists (tvec v). split; [|apply ptin_tvec]. unfold inter_thickpoints. apply in_or_app. right. apply in_or_app. left.
    apply filter_In. split; [apply (in_map tvec), Hv|]. apply contains_not_no; assumption. }
  apply (seg_common P _ q1 q2 z CP (hull_convex _)); auto.
  - apply E. left. reflexivity.
  - apply E. right. left. reflexivity.
  - intros w j Hj D S1 S2. apply hull_base. exists (tvec w). split; [|apply ptin_tvec].
    unfold inter_thickpoints. apply in_or_app. right. apply in_or_app. right. apply in_flat_map. eexists. split; [apply (pairs_mem P j Hj)|].
    apply in_flat_map. exists (tvec q1, tvec q2). split; [left; reflexivity|]. apply edge_points_complete; auto using ccw_edge.
    rewrite det_swap. intros D0. apply D. apply Ropp_eq_0_compat in D0. rewrite Ropp_involutive in D0. exact D0.
Qed.
Lemma inter_pt_r i x : inter i (pt x) = pt x \/ inter i (pt x) = Emp.
Proof.
  destruct i as [|l h]; [right; reflexivity|]. cbn [inter pt].
  assert (L : exists a, max_lo l (Some x) = Some a /\ x <= a) by (destruct l as [a|]; cbn; eexists; (split; [reflexivity|]); [apply Rmax_r|lra]).
  assert (H : exists b, min_hi h (Some x) = Some b /\ b <= x) by (destruct h as [b|]; cbn; eexists; (split; [reflexivity|]); [apply Rmin_r|lra]).
  destruct L as (a & -> & La), H as (b & -> & Hb). unfold mk. destruct (Rle_dec a b) as [E|E]; [left|right; reflexivity]. unfold pt. replace a with x by lra. replace b with x by lra. reflexivity.
Qed.
Lemma e_inter_point p1 p2 q : e_inter gexact (tvec p1, tvec p2) (tvec q, tvec q) = t_none \/ e_inter gexact (tvec p1, tvec p2) (tvec q, tvec q) = tvec q.
Proof.
  unfold e_inter. rewrite (e_box_pts q q), !I2_same. cbn [fst snd].
  set (X := inter (fst (proj_intersection _ _ _)) _). set (Y := inter (snd (proj_intersection _ _ _)) _).
  destruct (inter_pt_r X (fst q)) as [->| ->]; [|left; unfold tpt; cbn [is_empty]; destruct (is_empty _); reflexivity].
  destruct (inter_pt_r Y (snd q)) as [->| ->]; [right|left]; reflexivity.
Qed.
Lemma point_points P q t : ccw P -> List.In t (inter_thickpoints gexact P [q]) -> exists c, t = tvec c.
Proof.
  intros CP H. unfold inter_thickpoints in H. apply in_app_or in H as [H|H]; [|apply in_app_or in H as [H|H]].
  - apply filter_In in H as [H _]. apply in_map_iff in H as (v & <- & _). eexists. reflexivity.
  - apply filter_In in H as [H _]. apply in_map_iff in H as (v & <- & _). eexists. reflexivity.
  - apply in_flat_map in H as (e1 & H1 & H). apply in_flat_map in H as (e2 & H2 & H). rewrite edges_pairs in H1.
    apply in_map_iff in H1 as (u & <- & H1). destruct H2 as [<-|[]]. cbn [fst snd] in H. rewrite tedge_pts in H. unfold edge_points in H.
    destruct (e_inter_point (fst u) (snd u) q) as [E|E]; rewrite E in H; [destruct H|]. change (t_empty (tvec q)) with false in H.
    destruct (negb _); [|destruct H as [<-|[]]; eexists; reflexivity]. cbn [fst snd] in H.
    repeat (apply in_app_or in H as [H|H]); match type of H with List.In _ (if ?b then _ else _) => destruct b end; destruct H as [<-|[]] || destruct H; eexists; reflexivity.
Qed.
Theorem C83_point_partial : forall mid P q, ccw P -> conv P q -> conv (poly_inter gexact mid P [q]) q.
Proof.
  intros mid P q CP HP. unfold poly_inter.
  assert (SO : Forall solid (inter_thickpoints gexact P [q])).
  { apply Forall_forall. intros t Ht. destruct (point_points P q t CP Ht) as (c & ->). left. exists c. reflexivity. }
  apply (C82_thick_partial mid _ SO). apply hull_base. exists (tvec q). split; [|apply ptin_tvec].
  unfold inter_thickpoints. apply in_or_app. right. apply in_or_app. left. apply filter_In. split; [left; reflexivity|]. apply contains_not_no; assumption.
Qed.
(** The polygon of a flat box. *)
Lemma v_eqb_t p : v_eqb p p = true.
Proof. unfold v_eqb. rewrite !Reqb_refl. reflexivity. Qed.
Lemma flat_poly a b c d : a = b \/ c = d -> poly_of_box gexact (I2 a b, I2 c d) = if v_eqb (a, c) (b, d) then [(a, c)] else [(a, c); (b, d)].
Proof.
  intros H. unfold poly_of_box. cbn [box_corners I2].
  assert (E : remove_identical [(a, c); (b, c); (b, d); (a, d)] = if v_eqb (a, c) (b, d) then [(a, c)] else [(a, c); (b, d)]).
  { assert (D : forall p q, p <> q -> v_eqb p q = false) by (intros; apply v_eqb_f; assumption).
    assert (N : forall u v : R, u <> v -> v <> u) by (intros u v X Y; apply X; symmetry; exact Y).
    unfold remove_identical. destruct H as [->| ->].
    - destruct (Req_dec c d) as [->|X]; [|pose proof (N _ _ X)].
      + repeat first [rewrite v_eqb_t | progress cbn [fold_left existsb app orb]]. reflexivity.
      + repeat first [rewrite v_eqb_t | rewrite D by (intros Y; injection Y as Y; contradiction) | progress cbn [fold_left existsb app orb]]. reflexivity.
    - destruct (Req_dec a b) as [->|X]; [|pose proof (N _ _ X)].
      + repeat first [rewrite v_eqb_t | progress cbn [fold_left existsb app orb]]. reflexivity.
      + repeat first [rewrite v_eqb_t | rewrite D by (intros Y; injection Y as Y; contradiction) | progress cbn [fold_left existsb app orb]]. reflexivity. }
  rewrite hull_small; rewrite E; [reflexivity|]. destruct (v_eqb _ _); cbn; lia.
Qed.
(** Whatever the bounded box, no common point of the box and of a strictly convex polygon is lost. *)
Theorem C83_any_box_partial : forall mid x P, compact x -> ccw P -> forall z, ptin z x -> conv P z -> conv (box_inter gexact mid x P) z.
Proof.
  intros mid x P (a & b & c & d & -> & Hab & Hcd) CP z Hz HP.
  destruct (Rlt_dec a b) as [L1|L1]; [destruct (Rlt_dec c d) as [L2|L2]|].
  - apply C83_box; auto.
  - assert (c = d) as -> by lra. unfold box_inter. rewrite flat_poly by auto. rewrite v_eqb_f by (intros X; injection X; lra).
    apply C83_segment_partial; auto; [intros X; injection X; lra|]. destruct Hz as [Hx Hy]. cbn in Hx, Hy.
    destruct (seg_param a b (fst z)) as (k & K & E); [lra|]. exists k. cbn. split; [lra|]. split; [lra|]. rewrite Rminus_diag_eq by reflexivity. lra.
  - assert (a = b) as -> by lra. unfold box_inter. rewrite flat_poly by auto. destruct Hz as [Hx Hy]. cbn in Hx, Hy. destruct (v_eqb (b, c) (b, d)) eqn:E.
    + assert (c = d) as ->. { unfold v_eqb in E. apply andb_prop in E as [_ E]. apply Reqb_true in E. exact E. }
      replace z with (b, d) in *. 2: { destruct z; cbn in *. apply pair_eq; lra. } apply C83_point_partial; assumption.
    + apply C83_segment_partial; auto; [intros X; rewrite X, v_eqb_t in E; discriminate|].
      destruct (seg_param c d (snd z)) as (k & K & EE); [lra|]. exists k. cbn. split; [lra|]. split; [rewrite Rminus_diag_eq by reflexivity; lra|lra].
Qed.
(** ThickEdge::contains on an edge reduced to a point accepts any point ... *)
Theorem C83_degenerate_edge : forall q z, e_contains gexact (tvec q, tvec q) (tvec z) = MAYBE.
Proof.
  intros q z. unfold e_contains, aligned. rewrite !tvec_some. cbn [fst snd gexact g_ar g_sqr iadd isub imul exact].
  rewrite !xsub_pt, !xmul_pt, !xsub_pt, !xsqr_pt, !xadd_pt, hull_pt, itv_eqb_pt.
  replace ((fst q - fst z) * (snd q - snd z) - (snd q - snd z) * (fst q - fst z)) with 0 by ring. rewrite Reqb_refl. cbn [is_no].
  replace ((fst q - fst q) * (fst q - fst z) + (snd q - snd q) * (snd q - snd z)) with 0 by ring.
  replace ((fst q - fst q) * (fst q - fst q) + (snd q - snd q) * (snd q - snd q)) with 0 by ring.
  rewrite (proj2 (is_subset_spec (pt 0) (I2 (Rmin 0 0) (Rmax 0 0)) ltac:(cbn; lra))); [reflexivity|].
  intros x Hx. rewrite I2_same. exact Hx.
Qed.
(** ... so that the intersection with a point that is on a vertical edge keeps this whole edge. *)
Theorem C83_point_refuted : exists P q z, ccw P /\ z <> q /\ conv (box_inter gexact xmid (tvec q) P) z.
Proof.
  exists triangle, (0, 1), (0, 2). refine (conj (proj1 C82_neg_case) (conj _ _)); [intros X; injection X; lra|].
  unfold box_inter. rewrite tvec_some. change (pt (fst (0, 1)), pt (snd (0, 1))) with (I2 0 0, I2 1 1). rewrite flat_poly, v_eqb_t by auto. unfold poly_inter.
  assert (SO : Forall solid (inter_thickpoints gexact triangle [(0, 1)])).
  { apply Forall_forall. intros t Ht. destruct (point_points triangle (0, 1) t (proj1 C82_neg_case) Ht) as (c & ->). left. exists c. reflexivity. }
  apply (C82_thick_partial xmid _ SO). apply hull_base. exists (tvec (0, 2)). split; [|apply ptin_tvec].
  unfold inter_thickpoints. apply in_or_app. right. apply in_or_app. right. apply in_flat_map. exists (tvec (0, 2), tvec (0, 0)). split; [right; right; left; reflexivity|].
  apply in_flat_map. exists (tvec (0, 1), tvec (0, 1)). split; [left; reflexivity|]. unfold edge_points.
  assert (E : ptin (0, 1) (e_inter gexact (tvec (0, 2), tvec (0, 0)) (tvec (0, 1), tvec (0, 1)))).
  { rewrite <- !tedge_pts. apply (C65_intersection_partial gexact gexact_ok _ _ _ _ (0, 2) (0, 0) (0, 1) (0, 1)); try apply ptin_tvec.
    - exists (1 / 2). cbn. lra.
    - apply seg_same.
    - right. split; left; reflexivity. }
  rewrite (ptin_not_empty _ _ E). unfold parallel. rewrite !vertical_pts. cbn [fst snd]. rewrite !Reqb_refl. cbn [is_yes andb is_no negb].
  rewrite (C83_degenerate_edge (0, 1) (0, 2)). cbn [is_no]. apply in_or_app. right. apply in_or_app. right. apply in_or_app. left. left. reflexivity.
Qed.

(** ** Concrete cases *)
Definition triangle2 : polygon := [(1, 0); (3, 0); (1, 2)].
Lemma triangle2_ccw : ccw triangle2.
Proof. split; [cbn; lia|]. intros i j k Hi Hk. cbn in Hk. assert (i = 0 /\ j = 1 /\ k = 2)%nat as (-> & -> & ->) by lia. unfold area. cbn. lra. Qed.
(** overlapping triangles: a common point, and a point of the first one only *)
Example C83_inter_case : ccw triangle /\ ccw triangle2 /\ conv (poly_inter gexact xmid triangle triangle2) (1, 1 / 2) /\
  ~ conv (poly_inter gexact xmid triangle triangle2) (1 / 2, 1 / 2).
Proof.
  refine (conj (proj1 C82_neg_case) (conj triangle2_ccw (conj _ _))).
  - apply (C83_inter xmid _ _ (proj1 C82_neg_case) triangle2_ccw). split; [apply triangle_in; lra|].
    apply (conv_seg triangle2 (1, 0) (1, 2)); try (apply conv_vertex; cbn; tauto). exists (1 / 4). cbn. lra.
  - intros H. apply (C83_inter xmid _ _ (proj1 C82_neg_case) triangle2_ccw) in H as [_ H].
    apply (conv_half triangle2 1 0 (-1)) in H; [cbn in H; lra|]. intros v [<-|[<-|[<-|[]]]]; cbn; lra.
Qed.
Example C83_box_case : conv (box_inter gexact xmid unit_box triangle) (1, 1) /\ ~ conv (box_inter gexact xmid unit_box triangle) (2, 0) /\
  conv (box_inter gexact xmid (I2 1 1, I2 (-1) 3) triangle) (1, 1 / 2) /\ conv (box_inter gexact xmid (tvec (1, 1)) triangle) (1, 1).
Proof.
  pose proof (proj1 C82_neg_case) as C. refine (conj _ (conj _ (conj _ _))).
  - apply C83_box; auto; try lra. split; [split; cbn; lra|apply triangle_in; lra].
  - intros H. apply C83_box in H as [[H _] _]; auto; try lra. cbn in H. lra.
  - apply C83_any_box_partial; auto; [exists 1, 1, (-1), 3; repeat split; lra|split; cbn; lra|apply triangle_in; lra].
  - apply C83_any_box_partial; auto; [exists 1, 1, 1, 1; repeat split; lra|split; cbn; lra|apply triangle_in; lra].
Qed.

Print Assumptions C83_inter.
Print Assumptions C83_any_box_partial.
Print Assumptions C83_point_refuted.
