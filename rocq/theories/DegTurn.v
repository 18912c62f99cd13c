(** * Variation of the angle of a continuous function of the plane along horizontal and vertical segments
    (mathematics only; used for the topological degree of src/core/paving/codac_ConnectedSubset_degree.cpp) *)
From Coq Require Import Reals Lra Lia Bool List.
From Coquelicot Require Continuity Hierarchy.
Import ListNotations.
From Verif Require Import Itv PropsPolar PropsSepPolar Winding.
Open Scope R_scope.

(** a vector with its polar coordinates *)
Definition has_angle (v : R * R) (t : R) : Prop := exists r, 0 < r /\ fst v = r * cos t /\ snd v = r * sin t.
Lemma has_angle_mod v t u : has_angle v t -> has_angle v u -> exists k, t = u + IZR k * (2 * PI).
Proof.
  intros (r & P & X & Y) (r' & P' & X' & Y'). destruct (same_polar t u r r') as [C S]; auto; try congruence. apply same_angle; auto.
Qed.
Lemma has_angle_eq v t u : has_angle v t -> has_angle v u -> Rabs (t - u) < 2 * PI -> t = u.
Proof.
  intros H1 H2 H. pose proof PI_RGT_0. destruct (has_angle_mod v t u H1 H2) as (k & E). apply Rabs_def2 in H.
  assert (-1 < IZR k < 1) as [K1 K2]. { split; apply Rmult_lt_reg_r with (2 * PI); lra. }
  apply lt_IZR in K1, K2. assert (k = 0%Z) as -> by lia. lra.
Qed.
Lemma has_angle_ex v : (fst v <> 0 \/ snd v <> 0) -> exists t, has_angle v t.
Proof. intros H. destruct (polar_from 0 _ _ H) as (r & t & P & X & Y & _). exists t, r. auto. Qed.
Lemma has_angle_nz v t : has_angle v t -> fst v <> 0 \/ snd v <> 0.
Proof.
  intros (r & P & X & Y). pose proof (sin2_cos2 t) as Q. unfold Rsqr in Q.
  destruct (Req_dec (fst v) 0) as [E1|]; auto. destruct (Req_dec (snd v) 0) as [E2|]; auto. exfalso.
  rewrite E1 in X. rewrite E2 in Y. assert (cos t = 0) by nra. assert (sin t = 0) by nra. nra.
Qed.

(** dot and cross products, angle from the first vector to the second *)
Definition vdot (v w : R * R) : R := fst v * fst w + snd v * snd w.
Definition vturn (v w : R * R) : R := ang (vdot v w) (fst v * snd w - snd v * fst w).
Lemma vturn_range v w : 0 < vdot v w -> - (PI / 2) < vturn v w < PI / 2.
Proof.
  intros D. unfold vturn. destruct (ang_polar (vdot v w) (fst v * snd w - snd v * fst w)) as (r & P & X & _ & B); [auto|].
  set (t := ang _ _) in *. assert (0 < cos t) as C by nra. pose proof PI_RGT_0.
  split; apply Rnot_le_lt; intros N.
  - assert (cos t <= 0); [|lra]. rewrite <- cos_neg. apply cos_le_0; lra.
  - assert (cos t <= 0); [|lra]. apply cos_le_0; lra.
Qed.
Lemma vturn_angle v w t : has_angle v t -> 0 < vdot v w -> has_angle w (t + vturn v w).
Proof.
  intros (r & P & X & Y) D. unfold vturn. destruct (ang_polar (vdot v w) (fst v * snd w - snd v * fst w)) as (s & Q & DX & DY & _); [auto|].
  set (u := ang _ _) in *. exists (s / r). split; [apply Rmult_lt_0_compat; auto; apply Rinv_0_lt_compat; auto|].
  unfold vdot in DX. rewrite X, Y in DX, DY. pose proof (sin2_cos2 t) as S. unfold Rsqr in S. rewrite cos_plus, sin_plus.
  split; apply (Rmult_eq_reg_l r); try lra.
  - replace (r * (s / r * (cos t * cos u - sin t * sin u))) with (cos t * (s * cos u) - sin t * (s * sin u)) by (field; lra).
    rewrite <- DX, <- DY. transitivity (r * fst w * (sin t * sin t + cos t * cos t)); [rewrite S; ring|ring].
  - replace (r * (s / r * (sin t * cos u + cos t * sin u))) with (sin t * (s * cos u) + cos t * (s * sin u)) by (field; lra).
    rewrite <- DX, <- DY. transitivity (r * snd w * (sin t * sin t + cos t * cos t)); [rewrite S; ring|ring].
Qed.
Lemma dot_nz v w : 0 < vdot v w -> fst v <> 0 \/ snd v <> 0.
Proof.
  unfold vdot. intros D. destruct (Req_dec (fst v) 0) as [E1|]; auto. destruct (Req_dec (snd v) 0) as [E2|]; auto. rewrite E1, E2 in D. lra.
Qed.
Lemma vturn_add u v w : 0 < vdot u v -> 0 < vdot v w -> 0 < vdot u w -> vturn u v + vturn v w = vturn u w.
Proof.
  intros H1 H2 H3. destruct (has_angle_ex u (dot_nz _ _ H1)) as (t & Ht).
  pose proof (vturn_angle _ _ _ Ht H1) as A1. pose proof (vturn_angle _ _ _ A1 H2) as A2. pose proof (vturn_angle _ _ _ Ht H3) as A3.
  pose proof (vturn_range _ _ H1). pose proof (vturn_range _ _ H2). pose proof (vturn_range _ _ H3). pose proof PI_RGT_0.
  assert (t + vturn u v + vturn v w = t + vturn u w) as E; [|lra]. apply (has_angle_eq w); auto. apply Rabs_def1; lra.
Qed.
(** two angles that differ by less than pi: the turn *)
Lemma vturn_diff v w a b : has_angle v a -> has_angle w b -> 0 < vdot v w -> Rabs (b - a) < PI -> b - a = vturn v w.
Proof.
  intros H1 H2 D H. pose proof (vturn_angle _ _ _ H1 D) as A. pose proof (vturn_range _ _ D). pose proof PI_RGT_0. apply Rabs_def2 in H.
  assert (b = a + vturn v w); [|lra]. apply (has_angle_eq w); auto. apply Rabs_def1; lra.
Qed.

(** ** Lifts on a rectangle *)
Definition field2 : Type := R -> R -> R * R.
Definition inrect (a b c d x y : R) : Prop := a <= x <= b /\ c <= y <= d.
(** [Phi] follows the angle of [f] on short horizontal and vertical moves in the rectangle *)
Definition lift (f : field2) (del a b c d : R) (Phi : R -> R -> R) : Prop :=
  (forall x x' y, inrect a b c d x y -> inrect a b c d x' y -> Rabs (x' - x) < del -> Phi x' y - Phi x y = vturn (f x y) (f x' y)) /\
  (forall x y y', inrect a b c d x y -> inrect a b c d x y' -> Rabs (y' - y) < del -> Phi x y' - Phi x y = vturn (f x y) (f x y')).
(** the values of [f] at points closer than [del] are less than a right angle apart *)
Definition tame (f : field2) (del a b c d : R) : Prop :=
  forall x y x' y', inrect a b c d x y -> inrect a b c d x' y' -> Rabs (x' - x) < del -> Rabs (y' - y) < del -> 0 < vdot (f x y) (f x' y').
Definition swap (f : field2) : field2 := fun x y => f y x.
Lemma lift_swap f del a b c d Phi : lift (swap f) del c d a b (fun y x => Phi x y) -> lift f del a b c d Phi.
Proof. unfold lift, swap, inrect. intros [H1 H2]. split; intros; [apply H2|apply H1]; tauto. Qed.
Lemma tame_swap f del a b c d : tame f del a b c d -> tame (swap f) del c d a b.
Proof. unfold tame, swap, inrect. intros H x y x' y' H1 H2 H3 H4. apply H; tauto. Qed.
Lemma tame_sub f del a b c d a' b' c' d' : a <= a' -> b' <= b -> c <= c' -> d' <= d -> tame f del a b c d -> tame f del a' b' c' d'.
Proof. unfold tame, inrect. intros Ha Hb Hc Hd H x y x' y' H1 H2 H3 H4. apply H; auto; lra. Qed.

Lemma lift_small f del a b c d : 0 < del -> a <= b -> c <= d -> b - a < del -> d - c < del -> tame f del a b c d -> exists Phi, lift f del a b c d Phi.
Proof.
  intros Hd Hab Hcd H1 H2 HT. exists (fun x y => vturn (f a c) (f x y)).
  assert (forall x y x' y', inrect a b c d x y -> inrect a b c d x' y' -> vturn (f a c) (f x' y') - vturn (f a c) (f x y) = vturn (f x y) (f x' y')) as H.
  { unfold inrect. intros x y x' y' [] []. rewrite <- (vturn_add (f a c) (f x y) (f x' y')); [lra| | |]; apply HT; unfold inrect; try lra; apply Rabs_def1; lra. }
  split; intros; apply H; auto.
Qed.
(** a function that does not change on short moves is constant *)
Lemma short_const (g : R -> R) del c d : 0 < del -> (forall y y', c <= y <= d -> c <= y' <= d -> Rabs (y' - y) < del -> g y' = g y) ->
  forall y y', c <= y <= d -> c <= y' <= d -> g y' = g y.
Proof.
  intros Hd H. assert (forall n y y', c <= y <= d -> c <= y' <= d -> 0 <= y' - y < INR n * (del / 2) -> g y' = g y) as HN.
  { induction n as [|n IH]; intros y y' Hy Hy' HL; [cbn in HL; lra|]. rewrite S_INR in HL.
    destruct (Rlt_dec (y' - y) del) as [L|L]; [apply H; auto; apply Rabs_def1; lra|].
    rewrite <- (IH y (y' - del / 2)); try lra. apply H; try lra; apply Rabs_def1; lra. }
  assert (forall y y', c <= y <= d -> c <= y' <= d -> y <= y' -> g y' = g y) as HO.
  { intros y y' Hy Hy' L. destruct (archimed ((y' - y) / (del / 2))) as [A _].
    set (k := up _) in *. assert (0 <= (y' - y) / (del / 2)) as P. { apply Rmult_le_pos; [lra|]. left. apply Rinv_0_lt_compat. lra. }
    assert (0 < k)%Z by (apply lt_IZR; lra). apply (HN (Z.to_nat k)); auto. split; [lra|].
    rewrite INR_IZR_INZ, Z2Nat.id by lia. apply Rmult_lt_reg_r with (/ (del / 2)); [apply Rinv_0_lt_compat; lra|].
    rewrite Rmult_assoc, Rinv_r by lra. unfold Rdiv in A. lra. }
  intros y y' Hy Hy'. destruct (Rle_dec y y'); [apply HO|symmetry; apply HO]; auto; lra.
Qed.

Lemma lift_glue_x f del a m b c d : 0 < del -> a <= m <= b -> c <= d -> tame f del a b c d ->
  (exists Phi, lift f del a m c d Phi) -> (exists Phi, lift f del m b c d Phi) -> exists Phi, lift f del a b c d Phi.
Proof.
  intros Hd Hm Hcd HT (P1 & X1 & Y1) (P2 & X2 & Y2).
  assert (forall y, c <= y <= d -> P2 m y - P1 m y = P2 m c - P1 m c) as K.
  { intros y Hy. apply (short_const (fun y => P2 m y - P1 m y) del c d); auto; [|lra]. intros u u' Hu Hu' HL.
    assert (P1 m u' - P1 m u = vturn (f m u) (f m u')) by (apply Y1; auto; unfold inrect; lra).
    assert (P2 m u' - P2 m u = vturn (f m u) (f m u')) by (apply Y2; auto; unfold inrect; lra). lra. }
  set (k := P2 m c - P1 m c) in *. exists (fun x y => if Rle_dec x m then P1 x y else P2 x y - k).
  unfold inrect in *. split.
  - intros x x' y [Hx Hy] [Hx' _] HL. assert (HL' := HL). apply Rabs_def2 in HL'. destruct (Rle_dec x' m) as [L'|L'], (Rle_dec x m) as [L|L].
    + apply X1; auto; lra.
    + pose proof (K y Hy). assert (P1 x' y - P1 m y = vturn (f m y) (f x' y)) by (apply X1; try lra; apply Rabs_def1; lra).
      assert (P2 m y - P2 x y = vturn (f x y) (f m y)) by (apply X2; try lra; apply Rabs_def1; lra).
      assert (vturn (f x y) (f m y) + vturn (f m y) (f x' y) = vturn (f x y) (f x' y)); [|lra].
      apply vturn_add; apply HT; unfold inrect; try lra; apply Rabs_def1; lra.
    + pose proof (K y Hy). assert (P1 m y - P1 x y = vturn (f x y) (f m y)) by (apply X1; try lra; apply Rabs_def1; lra).
      assert (P2 x' y - P2 m y = vturn (f m y) (f x' y)) by (apply X2; try lra; apply Rabs_def1; lra).
      assert (vturn (f x y) (f m y) + vturn (f m y) (f x' y) = vturn (f x y) (f x' y)); [|lra].
      apply vturn_add; apply HT; unfold inrect; try lra; apply Rabs_def1; lra.
    + rewrite <- (X2 x x' y); auto; lra.
  - intros x y y' [Hx Hy] [_ Hy'] HL. destruct (Rle_dec x m) as [L|L].
    + apply Y1; auto; lra.
    + rewrite <- (Y2 x y y'); auto; lra.
Qed.
Lemma lift_wide f del : 0 < del -> forall n a b c d, a <= b -> c <= d -> d - c < del -> b - a < del * 2 ^ n -> tame f del a b c d -> exists Phi, lift f del a b c d Phi.
Proof.
  intros Hd. induction n as [|n IH]; intros a b c d Hab Hcd H1 H2 HT.
  - apply lift_small; auto. cbn in H2. lra.
  - cbn [pow] in H2. apply lift_glue_x with ((a + b) / 2); auto; try lra.
    + apply IH; auto; try lra. apply (tame_sub f del a b c d); auto; lra.
    + apply IH; auto; try lra. apply (tame_sub f del a b c d); auto; lra.
Qed.
Lemma lift_exists f del : 0 < del -> forall n m a b c d, a <= b -> c <= d -> d - c < del * 2 ^ m -> b - a < del * 2 ^ n -> tame f del a b c d -> exists Phi, lift f del a b c d Phi.
Proof.
  intros Hd n. induction m as [|m IH]; intros a b c d Hab Hcd H1 H2 HT.
  - apply lift_wide with n; auto. cbn in H1. lra.
  - cbn [pow] in H1.
    assert (exists Psi, lift (swap f) del c d a b Psi) as (Psi & HP).
    { apply lift_glue_x with ((c + d) / 2); auto; try lra; [apply tame_swap; auto| |].
      - destruct (IH a b c ((c + d) / 2)) as (Phi & HP); auto; try lra; [apply (tame_sub f del a b c d); auto; lra|].
        exists (fun y x => Phi x y). apply lift_swap. exact HP.
      - destruct (IH a b ((c + d) / 2) d) as (Phi & HP); auto; try lra; [apply (tame_sub f del a b c d); auto; lra|].
        exists (fun y x => Phi x y). apply lift_swap. exact HP. }
    exists (fun x y => Psi y x). apply lift_swap. exact HP.
Qed.

(** ** Continuity *)
Definition fcont (f : field2) (x y : R) : Prop :=
  Continuity.continuity_2d_pt (fun u v => fst (f u v)) x y /\ Continuity.continuity_2d_pt (fun u v => snd (f u v)) x y.
Definition nrm (v : R * R) : R := sqrt (fst v * fst v + snd v * snd v).
Lemma nrm_sq v : nrm v * nrm v = fst v * fst v + snd v * snd v.
Proof. unfold nrm. apply sqrt_sqrt. nra. Qed.
Lemma nrm_pos v : (fst v <> 0 \/ snd v <> 0) -> 0 < nrm v.
Proof. intros H. unfold nrm. apply sqrt_lt_R0. assert (0 <= fst v * fst v) by nra. assert (0 <= snd v * snd v) by nra. destruct H; assert (0 < fst v * fst v \/ 0 < snd v * snd v); try lra; [left|right]; nra. Qed.
Lemma tame_exists f a b c d : (forall x y, inrect a b c d x y -> fcont f x y) ->
  (forall x y, inrect a b c d x y -> fst (f x y) <> 0 \/ snd (f x y) <> 0) -> exists del, 0 < del /\ tame f del a b c d.
Proof.
  intros HC HZ.
  assert (forall x y, inrect a b c d x y -> Continuity.continuity_2d_pt (fun u v => / nrm (f u v)) x y) as CN.
  { intros x y H. destruct (HC x y H) as [C1 C2]. apply Continuity.continuity_2d_pt_inv.
    - unfold nrm. apply (Continuity.continuity_1d_2d_pt_comp sqrt (fun u v => fst (f u v) * fst (f u v) + snd (f u v) * snd (f u v))).
      + apply continuity_pt_sqrt. nra.
      + apply Continuity.continuity_2d_pt_plus; apply Continuity.continuity_2d_pt_mult; auto.
    - pose proof (nrm_pos _ (HZ x y H)). lra. }
  assert (0 < / 2) as H2 by lra.
  destruct (Continuity.uniform_continuity_2d (fun u v => fst (f u v) * / nrm (f u v)) a b c d) with (eps := mkposreal _ H2) as (d1 & U1).
  { intros x y Hx Hy. apply Continuity.continuity_2d_pt_mult; [apply HC|apply CN]; split; auto. }
  destruct (Continuity.uniform_continuity_2d (fun u v => snd (f u v) * / nrm (f u v)) a b c d) with (eps := mkposreal _ H2) as (d2 & U2).
  { intros x y Hx Hy. apply Continuity.continuity_2d_pt_mult; [apply HC|apply CN]; split; auto. }
  exists (Rmin d1 d2). split; [apply Rmin_pos; [apply d1|apply d2]|].
  intros x y x' y' H H' HX HY. destruct H as [Hx Hy], H' as [Hx' Hy'].
  assert (Rmin d1 d2 <= d1) by apply Rmin_l. assert (Rmin d1 d2 <= d2) by apply Rmin_r.
  specialize (U1 x y x' y' Hx Hy Hx' Hy' ltac:(lra) ltac:(lra)). specialize (U2 x y x' y' Hx Hy Hx' Hy' ltac:(lra) ltac:(lra)). cbn in U1, U2.
  assert (0 < nrm (f x y)) as N by (apply nrm_pos, HZ; split; auto). assert (0 < nrm (f x' y')) as N' by (apply nrm_pos, HZ; split; auto).
  apply Rabs_def2 in U1. apply Rabs_def2 in U2. unfold vdot.
  pose proof (nrm_sq (f x y)) as Q. pose proof (nrm_sq (f x' y')) as Q'.
  set (n := nrm (f x y)) in *. set (n' := nrm (f x' y')) in *.
  assert (fst (f x y) = fst (f x y) * / n * n) as E1 by (field; lra). assert (snd (f x y) = snd (f x y) * / n * n) as E2 by (field; lra).
  assert (fst (f x' y') = fst (f x' y') * / n' * n') as E1' by (field; lra). assert (snd (f x' y') = snd (f x' y') * / n' * n') as E2' by (field; lra).
  set (p := fst (f x y) * / n) in *. set (q := snd (f x y) * / n) in *. set (p' := fst (f x' y') * / n') in *. set (q' := snd (f x' y') * / n') in *.
  rewrite E1, E2 in Q. rewrite E1', E2' in Q'. rewrite E1, E2, E1', E2'.
  assert (p * p + q * q = 1). { apply (Rmult_eq_reg_l (n * n)); nra. }
  assert (p' * p' + q' * q' = 1). { apply (Rmult_eq_reg_l (n' * n')); nra. }
  assert ((p' - p) * (p' - p) < / 4) by nra. assert ((q' - q) * (q' - q) < / 4) by nra.
  assert (0 < p * p' + q * q') by nra.
  replace (p * n * (p' * n') + q * n * (q' * n')) with (n * n' * (p * p' + q * q')) by ring.
  apply Rmult_lt_0_compat; auto. apply Rmult_lt_0_compat; auto.
Qed.
Lemma pow2_big x : exists n, x < 2 ^ n.
Proof.
  destruct (archimed x) as [A _]. exists (Z.to_nat (up x)). apply Rlt_le_trans with (IZR (up x)); [lra|].
  destruct (Z.le_gt_cases (up x) 0) as [L|L].
  - apply IZR_le in L. pose proof (pow_lt 2 (Z.to_nat (up x))). lra.
  - rewrite <- (Z2Nat.id (up x)) at 1 by lia. rewrite <- INR_IZR_INZ. clear. induction (Z.to_nat (up x)) as [|n IH]; [cbn; lra|]. rewrite S_INR. cbn [pow].
    assert (1 <= 2 ^ n) by (apply pow_R1_Rle; lra). lra.
Qed.
Lemma lift_ok f a b c d : a <= b -> c <= d -> (forall x y, inrect a b c d x y -> fcont f x y) ->
  (forall x y, inrect a b c d x y -> fst (f x y) <> 0 \/ snd (f x y) <> 0) ->
  exists del Phi, 0 < del /\ tame f del a b c d /\ lift f del a b c d Phi.
Proof.
  intros Hab Hcd HC HZ. destruct (tame_exists f a b c d HC HZ) as (del & Hd & HT). exists del.
  destruct (pow2_big ((b - a) / del)) as (n & Hn). destruct (pow2_big ((d - c) / del)) as (m & Hm).
  destruct (lift_exists f del Hd n m a b c d) as (Phi & HP); auto; [| |exists Phi; auto].
  - apply Rmult_lt_reg_r with (/ del); [apply Rinv_0_lt_compat; auto|]. replace (del * 2 ^ m * / del) with (2 ^ m) by (field; lra). exact Hm.
  - apply Rmult_lt_reg_r with (/ del); [apply Rinv_0_lt_compat; auto|]. replace (del * 2 ^ n * / del) with (2 ^ n) by (field; lra). exact Hn.
Qed.

(** ** Segments: horizontal or vertical, inside the rectangle *)
Definition seg (x1 y1 x2 y2 x y : R) : Prop := (y1 = y2 /\ y = y1 /\ x1 <= x <= x2) \/ (x1 = x2 /\ x = x1 /\ y1 <= y <= y2).
Lemma lift_seg_const f del a b c d Phi (th : R -> R -> R) x1 y1 x2 y2 : 0 < del -> x1 <= x2 -> y1 <= y2 -> x1 = x2 \/ y1 = y2 -> lift f del a b c d Phi ->
  (forall x y, seg x1 y1 x2 y2 x y -> inrect a b c d x y) ->
  (exists del', 0 < del' /\ forall x y x' y', seg x1 y1 x2 y2 x y -> seg x1 y1 x2 y2 x' y' -> x = x' \/ y = y' -> Rabs (x' - x) < del' -> Rabs (y' - y) < del' -> th x' y' - th x y = vturn (f x y) (f x' y')) ->
  Phi x2 y2 - Phi x1 y1 = th x2 y2 - th x1 y1.
Proof.
  intros Hd Lx Ly HS [HX HY] HI (del' & Hd' & HT). set (e := Rmin del del'). assert (0 < e) as He by (apply Rmin_pos; auto).
  assert (e <= del) by apply Rmin_l. assert (e <= del') by apply Rmin_r.
  assert (Rabs 0 < del') as Z by (rewrite Rabs_R0; auto).
  destruct HS as [E|E]; subst.
  - assert (Phi x2 y2 - th x2 y2 = Phi x2 y1 - th x2 y1); [|lra].
    apply (short_const (fun y => Phi x2 y - th x2 y) e y1 y2); auto; try lra. intros y y' Hy Hy' HL.
    assert (seg x2 y1 x2 y2 x2 y) as S by (right; auto). assert (seg x2 y1 x2 y2 x2 y') as S' by (right; auto).
    rewrite <- Rminus_0_r at 1. assert (Phi x2 y' - Phi x2 y = vturn (f x2 y) (f x2 y')) by (apply HY; auto; lra).
    assert (th x2 y' - th x2 y = vturn (f x2 y) (f x2 y')) by (apply HT; auto; try lra; rewrite Rminus_diag_eq by auto; auto). lra.
  - assert (Phi x2 y2 - th x2 y2 = Phi x1 y2 - th x1 y2); [|lra].
    apply (short_const (fun x => Phi x y2 - th x y2) e x1 x2); auto; try lra. intros x x' Hx Hx' HL.
    assert (seg x1 y2 x2 y2 x y2) as S by (left; auto). assert (seg x1 y2 x2 y2 x' y2) as S' by (left; auto).
    assert (Phi x' y2 - Phi x y2 = vturn (f x y2) (f x' y2)) by (apply HX; auto; lra).
    assert (th x' y2 - th x y2 = vturn (f x y2) (f x' y2)) by (apply HT; auto; try lra; rewrite Rminus_diag_eq by auto; auto). lra.
Qed.
(** two rectangles that contain the segment *)
Lemma lift_agree f del a b c d Phi del' a' b' c' d' Phi' x1 y1 x2 y2 : 0 < del -> 0 < del' -> x1 <= x2 -> y1 <= y2 -> x1 = x2 \/ y1 = y2 ->
  lift f del a b c d Phi -> lift f del' a' b' c' d' Phi' ->
  (forall x y, seg x1 y1 x2 y2 x y -> inrect a b c d x y) -> (forall x y, seg x1 y1 x2 y2 x y -> inrect a' b' c' d' x y) ->
  Phi x2 y2 - Phi x1 y1 = Phi' x2 y2 - Phi' x1 y1.
Proof.
  intros Hd Hd' Lx Ly HS HL HL' HI HI'. apply (lift_seg_const f del a b c d Phi Phi' x1 y1 x2 y2); auto. exists del'. split; auto.
  intros x y x' y' S S' [E|E] H1 H2; subst; [apply (proj2 HL')|apply (proj1 HL')]; auto.
Qed.
(** a determination of the angle that stays in an open interval of length pi *)
Lemma lift_half f del a b c d Phi th lo x1 y1 x2 y2 : 0 < del -> x1 <= x2 -> y1 <= y2 -> x1 = x2 \/ y1 = y2 ->
  tame f del a b c d -> lift f del a b c d Phi -> (forall x y, seg x1 y1 x2 y2 x y -> inrect a b c d x y) ->
  (forall x y, seg x1 y1 x2 y2 x y -> has_angle (f x y) (th x y) /\ lo < th x y < lo + PI) ->
  Phi x2 y2 - Phi x1 y1 = th x2 y2 - th x1 y1.
Proof.
  intros Hd Lx Ly HS HT HL HI HA. apply (lift_seg_const f del a b c d Phi th x1 y1 x2 y2); auto. exists del. split; auto.
  intros x y x' y' S S' _ H1 H2. destruct (HA x y S) as [A B]. destruct (HA x' y' S') as [A' B']. apply vturn_diff; auto.
  apply Rabs_def1; lra.
Qed.

(** ** The angle in (-2 pi, 0], and the angle of a vector whose first component is positive *)
Definition psi (v : R * R) : R :=
  if Rlt_dec 0 (snd v) then ang (fst v) (snd v) - 2 * PI else if Rlt_dec (snd v) 0 then ang (fst v) (snd v)
  else if Rlt_dec 0 (fst v) then 0 else - PI.
Definition above (v : R * R) : R := if Rlt_dec 0 (snd v) then 1 else 0.
Lemma ang_axis x : 0 < x -> ang x 0 = 0.
Proof. intros P. pose proof PI_RGT_0. apply (ang_unique 0 x 0 x); rewrite ?cos_0, ?sin_0; lra. Qed.
Lemma psi_angle v : fst v <> 0 \/ snd v <> 0 -> has_angle v (psi v).
Proof.
  intros N. unfold psi, has_angle. pose proof PI_RGT_0.
  destruct (Rlt_dec 0 (snd v)) as [P|P]; [|destruct (Rlt_dec (snd v) 0) as [Q|Q]].
  - destruct (ang_polar (fst v) (snd v)) as (r & Pr & X & Y & _); [left; lra|]. exists r. split; auto.
    set (t := ang _ _) in *. replace (t - 2 * PI) with (t - IZR 1 * (2 * PI)) by (cbn; lra). rewrite cos_mod, sin_mod. auto.
  - destruct (ang_polar (fst v) (snd v)) as (r & Pr & X & Y & _); [left; lra|]. exists r. auto.
  - assert (snd v = 0) as E by lra. destruct (Rlt_dec 0 (fst v)) as [L|L].
    + exists (fst v). rewrite cos_0, sin_0, E. lra.
    + exists (- fst v). rewrite cos_neg, sin_neg, cos_PI, sin_PI, E. destruct N; lra.
Qed.
Lemma ang_upper x y : 0 < y -> 0 < ang x y < PI.
Proof. intros P. split; [apply ang_pos; auto|]. destruct (ang_polar x y) as (r & _ & _ & _ & B); [left; lra|]. lra. Qed.
Lemma ang_lower x y : y < 0 -> - PI < ang x y < 0.
Proof.
  intros P. destruct (ang_polar x y) as (r & Pr & X & Y & B); [left; lra|]. split; [lra|].
  apply Rnot_le_lt. intros N. assert (0 <= sin (ang x y)) by (apply sin_ge_0; lra). nra.
Qed.
Lemma ang_right x y : 0 < x -> - (PI / 2) < ang x y < PI / 2.
Proof.
  intros P. destruct (ang_polar x y) as (r & Pr & X & Y & B); [auto|]. set (t := ang x y) in *. pose proof PI_RGT_0.
  assert (0 < cos t) by nra. split; apply Rnot_le_lt; intros N.
  - assert (cos t <= 0); [|lra]. rewrite <- cos_neg. apply cos_le_0; lra.
  - assert (cos t <= 0); [|lra]. apply cos_le_0; lra.
Qed.
Lemma psi_right v : 0 < fst v -> ang (fst v) (snd v) = psi v + 2 * PI * above v.
Proof.
  intros P. unfold psi, above. destruct (Rlt_dec 0 (snd v)) as [|N]; [lra|]. destruct (Rlt_dec (snd v) 0) as [|N']; [lra|].
  destruct (Rlt_dec 0 (fst v)); [|lra]. assert (snd v = 0) as -> by lra. rewrite ang_axis by auto. lra.
Qed.
Lemma psi_left v : fst v < 0 -> - (3 * PI / 2) < psi v < - (PI / 2).
Proof.
  intros L. pose proof PI_RGT_0. destruct (psi_angle v) as (r & Pr & X & Y); [lra|].
  assert (- (2 * PI) < psi v <= 0) as B.
  { unfold psi. destruct (Rlt_dec 0 (snd v)) as [P|P]; [pose proof (ang_upper (fst v) (snd v) P); lra|].
    destruct (Rlt_dec (snd v) 0) as [Q|Q]; [pose proof (ang_lower (fst v) (snd v) Q); lra|]. destruct (Rlt_dec 0 (fst v)); lra. }
  assert (cos (psi v) < 0) by nra. split; apply Rnot_le_lt; intros N.
  - assert (0 <= cos (psi v)); [|lra]. replace (psi v) with ((psi v + 2 * PI) - IZR 1 * (2 * PI)) by (cbn; lra). rewrite cos_mod. apply cos_ge_0; lra.
  - assert (0 <= cos (psi v)); [|lra]. apply cos_ge_0; lra.
Qed.
Lemma lift_turn f del a b c d Phi x1 y1 x2 y2 (s1 : bool) : 0 < del -> x1 <= x2 -> y1 <= y2 -> x1 = x2 \/ y1 = y2 ->
  tame f del a b c d -> lift f del a b c d Phi -> (forall x y, seg x1 y1 x2 y2 x y -> inrect a b c d x y) ->
  (if s1 then forall x y, seg x1 y1 x2 y2 x y -> 0 < fst (f x y)
   else (forall x y, seg x1 y1 x2 y2 x y -> fst (f x y) < 0) \/ (forall x y, seg x1 y1 x2 y2 x y -> 0 < snd (f x y)) \/ (forall x y, seg x1 y1 x2 y2 x y -> snd (f x y) < 0)) ->
  Phi x2 y2 - Phi x1 y1 = psi (f x2 y2) - psi (f x1 y1) + 2 * PI * ((if s1 then 1 else 0) * (above (f x2 y2) - above (f x1 y1))).
Proof.
  intros Hd Lx Ly HS HT HL HI HC. pose proof PI_RGT_0.
  assert (seg x1 y1 x2 y2 x1 y1) as S1 by (unfold seg; destruct HS; subst; [right|left]; lra).
  assert (seg x1 y1 x2 y2 x2 y2) as S2 by (unfold seg; destruct HS; subst; [right|left]; lra).
  destruct s1.
  - rewrite (lift_half f del a b c d Phi (fun x y => ang (fst (f x y)) (snd (f x y))) (- (PI / 2)) x1 y1 x2 y2); auto.
    + rewrite !psi_right by auto. lra.
    + intros x y S. pose proof (HC x y S) as P. split.
      * destruct (ang_polar (fst (f x y)) (snd (f x y))) as (r & Pr & X & Y & _); [auto|]. exists r. auto.
      * pose proof (ang_right (fst (f x y)) (snd (f x y)) P). lra.
  - rewrite Rmult_0_l, Rmult_0_r, Rplus_0_r.
    destruct HC as [HC|[HC|HC]].
    + apply (lift_half f del a b c d Phi (fun x y => psi (f x y)) (- (3 * PI / 2))); auto.
      intros x y S. pose proof (HC x y S) as P. split; [apply psi_angle; lra|]. pose proof (psi_left _ P). lra.
    + apply (lift_half f del a b c d Phi (fun x y => psi (f x y)) (- (2 * PI))); auto.
      intros x y S. pose proof (HC x y S) as P. split; [apply psi_angle; lra|]. unfold psi. destruct (Rlt_dec 0 (snd (f x y))); [|lra].
      pose proof (ang_upper (fst (f x y)) (snd (f x y)) P). lra.
    + apply (lift_half f del a b c d Phi (fun x y => psi (f x y)) (- PI)); auto.
      intros x y S. pose proof (HC x y S) as P. split; [apply psi_angle; lra|]. unfold psi. destruct (Rlt_dec 0 (snd (f x y))); [lra|].
      destruct (Rlt_dec (snd (f x y)) 0); [|lra].
      pose proof (ang_lower (fst (f x y)) (snd (f x y)) P). lra.
Qed.
