(** * C78: the tests of thick disks, of functions and of translated boxes *)

From Coq Require Import Reals Lra Lia Bool List.
Import ListNotations.
From Verif Require Import Itv Arith Static PropsStatic Paving Geometry PropsGeom PropsSivia Concrete Thick PropsThickBool PropsThickItv PropsThickBox ThickDisk.
Open Scope R_scope.

(** ** Specification *)
(** squared distance *)
Definition d2 (p q : R * R) : R := (fst p - fst q) * (fst p - fst q) + (snd p - snd q) * (snd p - snd q).
(** the distance from [p] to [q] is in [r] *)
Definition at_dist (p q : R * R) (r : itv) : Prop := exists a, In a r /\ d2 p q = a * a.
(** The status of a point for the disk of centre in [mx] x [my] and radii in [rmin], [rmax]: inside when its distance to any
    possible centre is in [rmin], outside when its distance to no centre is in [rmax]. *)
Definition surely_in (mx my rmin : itv) (p : R * R) : Prop := forall a b, In a mx -> In b my -> at_dist p (a, b) rmin.
Definition surely_out (mx my rmax : itv) (p : R * R) : Prop := forall a b, In a mx -> In b my -> ~ at_dist p (a, b) rmax.
Definition dstat (mx my rmin rmax : itv) (p : R * R) (s : stat) : Prop :=
  match s with
  | sIn => surely_in mx my rmin p
  | sOut => surely_out mx my rmax p
  | sPen => ~ surely_in mx my rmin p /\ ~ surely_out mx my rmax p
  end.

(** ** Proofs *)
(** the same with intervals of squared distances *)
Definition sq_in (mx my ri : itv) (p : R * R) : Prop := forall a b, In a mx -> In b my -> In (d2 p (a, b)) ri.
Definition sq_out (mx my ra : itv) (p : R * R) : Prop := forall a b, In a mx -> In b my -> ~ In (d2 p (a, b)) ra.
Definition sq_stat (mx my ri ra : itv) (p : R * R) (s : stat) : Prop :=
  match s with
  | sIn => sq_in mx my ri p
  | sOut => sq_out mx my ra p
  | sPen => ~ sq_in mx my ri p /\ ~ sq_out mx my ra p
  end.

Definition cmin (x l u : R) : R := if Rle_dec l x then if Rle_dec x u then 0 else (x - u) * (x - u) else (x - l) * (x - l).
Definition cmax (x l u : R) : R := Rmax ((x - l) * (x - l)) ((x - u) * (x - u)).
Lemma cmin_le x l u m : l <= m <= u -> cmin x l u <= (x - m) * (x - m) <= cmax x l u.
Proof.
  intros H. unfold cmin, cmax. split.
  - destruct (Rle_dec l x); [destruct (Rle_dec x u) as [?|N]|rename n into N]; [apply Rle_0_sqr| |]; apply Rnot_le_lt in N; nra.
  - unfold Rmax. destruct (Rle_dec _ _) as [N|N]; [|apply Rnot_le_lt in N].
    + destruct (Rle_dec m x); [destruct (Rle_dec l x)|]; nra.
    + destruct (Rle_dec m x); nra.
Qed.
Lemma cmin_at x l u : l <= u -> exists m, l <= m <= u /\ (x - m) * (x - m) = cmin x l u.
Proof.
  intros H. unfold cmin. destruct (Rle_dec l x); [destruct (Rle_dec x u)|]; [exists x|exists u|exists l]; lra.
Qed.
Lemma cmax_at x l u : l <= u -> exists m, l <= m <= u /\ (x - m) * (x - m) = cmax x l u.
Proof.
  intros H. unfold cmax, Rmax. destruct (Rle_dec _ _); [exists u|exists l]; lra.
Qed.
Lemma sub_in x X a : In x X -> In (x - a) (xsub X (pt a)).
Proof. intros H. apply (isub_in exact exact_ok); auto. apply In_pt; reflexivity. Qed.
Lemma sqr_in x X : In x X -> In (x * x) (xsqr X).
Proof. apply (g_sqr_in gexact gexact_ok). Qed.
Lemma mul_in x y X Y : In x X -> In y Y -> In (x * y) (xmul X Y).
Proof. apply (imul_in exact exact_ok). Qed.
Lemma add_in x y X Y : In x X -> In y Y -> In (x + y) (xadd X Y).
Proof. apply (iadd_in exact exact_ok). Qed.
Definition rsign (z : R) : R := if Rlt_dec z 0 then -1 else if Rlt_dec 0 z then 1 else 0.
Lemma sign_in z Z e : In z Z -> (z < 0 -> e = -1) -> (0 < z -> e = 1) -> -1 <= e <= 1 -> In e (i_sign Z).
Proof.
  destruct Z as [|l h]; [contradiction|]. intros [A B] H1 H2 He. cbn [i_sign]. 
  destruct (match h with Some b => Rltb b 0 | None => false end) eqn:E1.
  - destruct h as [h|]; [|discriminate]. apply Rltb_true in E1. apply In_pt. apply H1. cbn in B. lra.
  - destruct (match l with Some a => Rltb 0 a | None => false end) eqn:E2.
    + destruct l as [l|]; [|discriminate]. apply Rltb_true in E2. apply In_pt. apply H2. cbn in A. lra.
    + apply In_mk; auto.
Qed.
Lemma td_min_in x X l u : l <= u -> In x X -> In (cmin x l u) (td_min X l u).
Proof.
  intros L H. unfold td_min.
  pose proof (sub_in x X u H) as Hu. pose proof (sub_in x X l H) as Hl.
  pose proof (mul_in _ _ _ _ Hu Hl) as Hm. pose proof (min_in _ _ _ _ (sqr_in _ _ Hl) (sqr_in _ _ Hu)) as Hq.
  assert (K : exists e, In e (i_sign (xmul (xsub X (pt u)) (xsub X (pt l)))) /\
     cmin x l u = Rmax 0 e * Rmin ((x - l) * (x - l)) ((x - u) * (x - u))).
  { unfold cmin. destruct (Rle_dec l x); [destruct (Rle_dec x u)|].
    - exists (-1). split; [apply (sign_in _ _ _ Hm); nra|]. rewrite Rmax_left by lra. ring.
    - exists 1. split; [apply (sign_in _ _ _ Hm); nra|]. rewrite Rmax_right by lra. rewrite Rmin_right by nra. ring.
    - exists 1. split; [apply (sign_in _ _ _ Hm); nra|]. rewrite Rmax_right by lra. rewrite Rmin_left by nra. ring. }
  destruct K as (e & He & ->). apply mul_in; auto. apply max_in; auto. apply In_pt; reflexivity.
Qed.
Lemma td_max_in x X l u : In x X -> In (cmax x l u) (td_max X l u).
Proof. intros H. unfold td_max, cmax. apply max_in; apply sqr_in, sub_in; auto. Qed.

(** every value between the least and the greatest squared distances is reached *)
Lemma d2_range p xl xu yl yu c : xl <= xu -> yl <= yu ->
  cmin (fst p) xl xu + cmin (snd p) yl yu <= c <= cmax (fst p) xl xu + cmax (snd p) yl yu ->
  exists a b, xl <= a <= xu /\ yl <= b <= yu /\ d2 p (a, b) = c.
Proof.
  destruct p as [x y]. cbn [fst snd]. intros Lx Ly H.
  destruct (cmin_at x xl xu Lx) as (a0 & A0 & E0). destruct (cmin_at y yl yu Ly) as (b0 & B0 & F0).
  destruct (cmax_at x xl xu Lx) as (a1 & A1 & E1). destruct (cmax_at y yl yu Ly) as (b1 & B1 & F1).
  set (f := fun t => (x - (a0 + t * (a1 - a0))) * (x - (a0 + t * (a1 - a0))) + (y - (b0 + t * (b1 - b0))) * (y - (b0 + t * (b1 - b0))) - c).
  assert (Cf : continuity f) by (unfold f; reg).
  assert (f0 : f 0 <= 0) by (unfold f; rewrite !Rmult_0_l, !Rplus_0_r; lra).
  assert (f1 : 0 <= f 1).
  { unfold f. rewrite !Rmult_1_l. replace (a0 + (a1 - a0)) with a1 by ring. replace (b0 + (b1 - b0)) with b1 by ring. lra. }
  destruct (IVT_cor f 0 1 Cf) as (t & T & Ft); [lra| |].
  { assert (0 <= (- f 0) * f 1) by (apply Rmult_le_pos; lra). lra. }
  exists (a0 + t * (a1 - a0)), (b0 + t * (b1 - b0)). unfold f in Ft. unfold d2. cbn [fst snd].
  split; [nra|]. split; [nra|]. lra.
Qed.

(** The body of the test, after the comparison with the bounding box, is right. *)
Lemma body_ok d xl xu yl yu il iu al au x y X Y s :
  d_mx d = Itv (Some xl) (Some xu) -> d_my d = Itv (Some yl) (Some yu) ->
  d_rmin d = Itv (Some il) (Some iu) -> d_rmax d = Itv (Some al) (Some au) ->
  xl <= xu -> yl <= yu -> al <= au -> sub (d_rmin d) (d_rmax d) -> In x X -> In y Y ->
  sq_stat (d_mx d) (d_my d) (d_rmin d) (d_rmax d) (x, y) s ->
  (b_intersects [X; Y] (d_bbox d) = false -> sq_out (d_mx d) (d_my d) (d_rmax d) (x, y)) ->
  exists v, td_test d [X; Y] = Some v /\ sem v s.
Proof.
  intros Ex Ey Ei Ea Lx Ly La Sub Hx Hy Hs Hbb.
  assert (Nout : sq_in (d_mx d) (d_my d) (d_rmin d) (x, y) -> sq_out (d_mx d) (d_my d) (d_rmax d) (x, y) -> False).
  { intros A B. apply (B xl yl); [rewrite Ex; cbn; lra|rewrite Ey; cbn; lra|]. apply Sub. apply A; [rewrite Ex; cbn; lra|rewrite Ey; cbn; lra]. }
  assert (Out : sq_out (d_mx d) (d_my d) (d_rmax d) (x, y) -> s = sOut).
  { intros A. destruct s; auto; exfalso; cbn in Hs; tauto. }
  assert (Inn : sq_in (d_mx d) (d_my d) (d_rmin d) (x, y) -> s = sIn).
  { intros A. destruct s; auto; exfalso; cbn in Hs; tauto. }
  unfold td_test. destruct (b_intersects [X; Y] (d_bbox d)) eqn:Eb; cbn [negb]; [|eexists; split; [reflexivity|]; cbn; auto].
  clear Hbb. rewrite Ex, Ey, Ei, Ea in *. cbv zeta.
  set (Xm := xadd (td_min X xl xu) (td_min Y yl yu)). set (Xp := xadd (td_max X xl xu) (td_max Y yl yu)).
  set (dm := cmin x xl xu + cmin y yl yu). set (dp := cmax x xl xu + cmax y yl yu).
  assert (Hm : In dm Xm) by (apply add_in; apply td_min_in; auto).
  assert (Hp : In dp Xp) by (apply add_in; apply td_max_in; auto).
  assert (Rng : forall a b, xl <= a <= xu -> yl <= b <= yu -> dm <= d2 (x, y) (a, b) <= dp).
  { intros a b A B. unfold d2, dm, dp. cbn [fst snd]. pose proof (cmin_le x xl xu a A). pose proof (cmin_le y yl yu b B). lra. }
  assert (Hub : forall a b, xl <= a <= xu -> yl <= b <= yu -> In (d2 (x, y) (a, b)) (hull Xm Xp)).
  { intros a b A B. apply (In_convex dm _ dp); [apply In_hull_l; auto|apply In_hull_r; auto|apply Rng; auto]. }
  destruct (intersects (Itv (Some al) (Some au)) (hull Xm Xp)) eqn:E1; cbn [negb].
  2:{ eexists. split; [reflexivity|]. apply Out. intros a b A B K. unfold intersects in E1. apply negb_false_iff, is_empty_true in E1.
      assert (In (d2 (x, y) (a, b)) Emp) by (rewrite <- E1; apply In_inter; auto). contradiction. }
  destruct (is_subset (hull Xm Xp) (Itv (Some il) (Some iu))) eqn:E2.
  { eexists. split; [reflexivity|]. apply Inn. intros a b A B. apply (is_subset_sub _ _ E2). apply Hub; auto. }
  set (b1 := is_subset (xsub Xm (pt au)) (Itv None (Some 0))). set (b2 := is_subset (xsub (pt al) Xp) (Itv None (Some 0))).
  assert (NO : b1 && b2 = true -> s <> sOut).
  { intros K ->. apply andb_true_iff in K as [K1 K2]. cbn in Hs.
    assert (D1 : dm <= au). { pose proof (is_subset_sub _ _ K1 _ (sub_in _ _ au Hm)) as [_ Q]. cbn in Q. lra. }
    assert (D2 : al <= dp).
    { assert (In (al - dp) (xsub (pt al) Xp)) as Q by (apply (isub_in exact exact_ok); auto; apply In_pt; reflexivity).
      destruct (is_subset_sub _ _ K2 _ Q) as [_ Q']. cbn in Q'. lra. }
    destruct (d2_range (x, y) xl xu yl yu (Rmax dm al) Lx Ly) as (a & b & A & B & E).
    - cbn [fst snd]. fold dm dp. split; [apply Rmax_l|]. apply Rmax_lub; [|lra]. destruct (Rng xl yl); lra.
    - apply (Hs a b); [exact A|exact B|]. rewrite E. split; [apply Rmax_r|apply Rmax_lub; lra]. }
  set (incl := ub_neg (xsub Xm (pt il)) || ub_neg (xsub (pt iu) Xp)).
  assert (NI : incl = true -> s <> sIn).
  { intros K ->. cbn in Hs. apply orb_true_iff in K as [K|K].
    - pose proof (sub_in _ _ il Hm) as Q. destruct (xsub Xm (pt il)) as [|l [u|]]; try discriminate. destruct Q as [_ Q]. cbn in K, Q. apply Rltb_true in K.
      destruct (d2_range (x, y) xl xu yl yu dm Lx Ly) as (a & b & A & B & E).
      + cbn [fst snd]. fold dm dp. split; [lra|]. destruct (Rng xl yl); lra.
      + destruct (Hs a b A B) as [F _]. cbn in F. rewrite E in F. lra.
    - assert (In (iu - dp) (xsub (pt iu) Xp)) as Q by (apply (isub_in exact exact_ok); auto; apply In_pt; reflexivity).
      destruct (xsub (pt iu) Xp) as [|l [u|]]; try discriminate. destruct Q as [_ Q]. cbn in K, Q. apply Rltb_true in K.
      destruct (d2_range (x, y) xl xu yl yu dp Lx Ly) as (a & b & A & B & E).
      + cbn [fst snd]. fold dm dp. split; [|lra]. destruct (Rng xl yl); lra.
      + destruct (Hs a b A B) as [_ F]. cbn in F. rewrite E in F. lra. }
  clearbody b1 b2 incl. destruct incl, (b1 && b2) eqn:Eb12; try (destruct b1, b2; discriminate).
  - destruct b1, b2; try discriminate. cbn. eexists. split; [reflexivity|]. specialize (NO eq_refl). specialize (NI eq_refl). destruct s; cbn; congruence.
  - assert (true && b1 && b2 = false) as -> by (destruct b1, b2; auto). cbn. eexists. split; [reflexivity|]. specialize (NI eq_refl). destruct s; cbn; auto; congruence.
  - cbn. eexists. split; [reflexivity|]. specialize (NO eq_refl). destruct s; cbn; auto; congruence.
  - cbn. eexists. split; [reflexivity|]. exact I.
Qed.

Definition fin (a b : R) : itv := Itv (Some a) (Some b).
Lemma sqr_form a b : a <= b -> exists l h, xsqr (fin a b) = fin l h /\ l <= h /\
  (forall z, In z (fin l h) <-> exists r, In r (fin a b) /\ z = r * r) /\ exists r, In r (fin a b) /\ h = r * r.
Proof.
  intros L. assert (K : forall l h, xsqr (fin a b) = fin l h -> (exists r, In r (fin a b) /\ h = r * r) -> (exists r, In r (fin a b) /\ l = r * r) ->
    (forall z, l <= z <= h -> 0 <= z /\ (In (sqrt z) (fin a b) \/ In (- sqrt z) (fin a b))) ->
    exists l h, xsqr (fin a b) = fin l h /\ l <= h /\
      (forall z, In z (fin l h) <-> exists r, In r (fin a b) /\ z = r * r) /\ exists r, In r (fin a b) /\ h = r * r).
  { intros l h E Hh (r & Hr & El) Hz. exists l, h. split; auto. 
    assert (Q : forall r, In r (fin a b) -> In (r * r) (fin l h)) by (intros r' Hr'; rewrite <- E; apply sqr_in; auto).
    split; [destruct (Q r Hr) as [_ Q']; cbn in Q'; lra|]. split; auto. intros z. split.
    - intros H. destruct (Hz z H) as (Z0 & [H1|H1]); [exists (sqrt z)|exists (- sqrt z)]; split; auto.
      + symmetry. apply sqrt_sqrt. auto.
      + replace (- sqrt z * - sqrt z) with (sqrt z * sqrt z) by ring. symmetry. apply sqrt_sqrt. auto.
    - intros (r' & Hr' & ->). auto. }
  assert (Sq : forall z, 0 <= z -> 0 <= sqrt z /\ sqrt z * sqrt z = z) by (intros z Z; split; [apply sqrt_pos|apply sqrt_sqrt; auto]).
  destruct (Rleb 0 a) eqn:E1.
  { apply Rleb_true in E1. apply (K (a * a) (b * b)).
    - unfold fin, xsqr. apply Rleb_true in E1. rewrite E1. reflexivity.
    - exists b. split; [cbn; lra|reflexivity].
    - exists a. split; [cbn; lra|reflexivity].
    - intros z Hz. assert (Z0 : 0 <= z) by nra. split; auto. left. destruct (Sq z Z0). cbn. nra. }
  destruct (Rleb b 0) eqn:E2.
  { apply Rleb_true in E2. apply (K (b * b) (a * a)).
    - unfold fin, xsqr. rewrite E1. apply Rleb_true in E2. rewrite E2. reflexivity.
    - exists a. split; [cbn; lra|reflexivity].
    - exists b. split; [cbn; lra|reflexivity].
    - intros z Hz. assert (Z0 : 0 <= z) by nra. split; auto. right. destruct (Sq z Z0). cbn. nra. }
  apply (K 0 (Rmax (a * a) (b * b))).
  - unfold fin, xsqr. rewrite E1, E2. reflexivity.
  - unfold Rmax. destruct (Rle_dec _ _); [exists b|exists a]; (split; [cbn; lra|reflexivity]).
  - apply Rleb_false in E1, E2. exists 0. split; [cbn; lra|ring].
  - apply Rleb_false in E1, E2. intros z Hz. split; [lra|]. destruct (Sq z) as [S0 S1]; [lra|]. revert Hz. unfold Rmax. destruct (Rle_dec _ _); intros Hz; [left|right]; cbn; nra.
Qed.
Lemma stat_conv mx my rmin rmax ri ra p s : (forall z, In z ri <-> exists r, In r rmin /\ z = r * r) -> (forall z, In z ra <-> exists r, In r rmax /\ z = r * r) ->
  dstat mx my rmin rmax p s -> sq_stat mx my ri ra p s.
Proof.
  intros Hi Ha.
  assert (A : surely_in mx my rmin p <-> sq_in mx my ri p).
  { split; intros H a b Pa Pb; specialize (H a b Pa Pb); [apply Hi|apply Hi in H]; exact H. }
  assert (B : surely_out mx my rmax p <-> sq_out mx my ra p).
  { split; intros H a b Pa Pb; specialize (H a b Pa Pb); intros K; apply H; [apply Ha in K|apply Ha]; exact K. }
  destruct s; cbn; tauto.
Qed.
Lemma bbox_ok mx my mx' my' k al au X Y x y : 0 <= k -> au <= k * k -> sub mx' mx -> sub my' my -> In x X -> In y Y ->
  b_intersects [X; Y] [xadd mx (fin (- k) k); xadd my (fin (- k) k)] = false -> sq_out mx' my' (fin al au) (x, y).
Proof.
  intros K0 K Sx Sy Hx Hy E a b Ha Hb Hd. apply (meets_pts _ _ E). exists [x; y].
  assert (D : (x - a) * (x - a) <= k * k /\ (y - b) * (y - b) <= k * k).
  { destruct Hd as [_ Hd]. unfold d2 in Hd. cbn in Hd. pose proof (Rle_0_sqr (x - a)). pose proof (Rle_0_sqr (y - b)). unfold Rsqr in *. lra. }
  assert (Bd : forall w, w * w <= k * k -> - k <= w <= k) by (intros w Hw; split; nra).
  split; (constructor; [|constructor; [|constructor]]); auto.
  - replace x with (a + (x - a)) by ring. apply add_in; auto. apply Bd. tauto.
  - replace y with (b + (y - b)) by ring. apply add_in; auto. apply Bd. tauto.
Qed.

(** ** C78 *)
(** The test of a disk given by intervals: right when one of the outer radii is at least 1. *)
Lemma disk_general xl xu yl yu a1 b1 a2 b2 mx' my' x y X Y s : xl <= xu -> yl <= yu -> a1 <= b1 -> a2 <= b2 ->
  sub (fin a1 b1) (fin a2 b2) -> (exists r, In r (fin a2 b2) /\ 1 <= r * r) ->
  (exists l u, mx' = fin l u /\ l <= u /\ xl <= l /\ u <= xu) -> (exists l u, my' = fin l u /\ l <= u /\ yl <= l /\ u <= yu) ->
  In x X -> In y Y -> dstat mx' my' (fin a1 b1) (fin a2 b2) (x, y) s ->
  exists v, td_test (td_set_params (td_new (fin xl xu) (fin yl yu) (fin a1 b1) (fin a2 b2)) mx' my') [X; Y] = Some v /\ sem v s.
Proof.
  intros Lx Ly L1 L2 Sb Hr (xl' & xu' & -> & Lx' & Cx & Cx') (yl' & yu' & -> & Ly' & Cy & Cy') Hx Hy Hs.
  destruct (sqr_form a1 b1 L1) as (il & iu & Ei & Li & Hi & _). destruct (sqr_form a2 b2 L2) as (al & au & Ea & La & Ha & (r0 & Hr0 & Eau)).
  unfold td_new, td_set_params. cbn [d_rmin d_rmax d_bbox]. rewrite Ei, Ea.
  assert (A1 : 1 <= au). { destruct Hr as (r & Hr & R1). assert (In (r * r) (fin al au)) as [_ Q] by (apply Ha; eauto). cbn in Q. lra. }
  assert (Es : sym_itv (fin al au) = fin (- au) au) by (unfold sym_itv, fin, mk; destruct (Rle_dec (- au) au); [reflexivity|lra]).
  rewrite Es.
  apply (body_ok _ xl' xu' yl' yu' il iu al au x y); cbn [d_mx d_my d_rmin d_rmax d_bbox]; auto.
  - intros z Hz. apply Ha. apply Hi in Hz as (r & Hz & ->). exists r. split; auto.
  - apply (stat_conv _ _ _ _ _ _ _ _ Hi Ha Hs).
  - intros Eb. eapply (bbox_ok (fin xl xu) (fin yl yu)); eauto; [lra|nra| |]; intros w; cbn; lra.
Qed.
Theorem C78_disk_partial : forall xl xu yl yu a1 b1 a2 b2 x y X Y s, xl <= xu -> yl <= yu -> a1 <= b1 -> a2 <= b2 ->
  sub (fin a1 b1) (fin a2 b2) -> (exists r, In r (fin a2 b2) /\ 1 <= r * r) ->
  In x X -> In y Y -> dstat (fin xl xu) (fin yl yu) (fin a1 b1) (fin a2 b2) (x, y) s ->
  exists v, td_test (td_new (fin xl xu) (fin yl yu) (fin a1 b1) (fin a2 b2)) [X; Y] = Some v /\ sem v s.
Proof.
  intros xl xu yl yu a1 b1 a2 b2 x y X Y s Lx Ly L1 L2 Sb Hr Hx Hy Hs.
  apply (disk_general xl xu yl yu a1 b1 a2 b2 (fin xl xu) (fin yl yu) x y); auto; [exists xl, xu|exists yl, yu]; repeat split; lra.
Qed.
(** and after [setParams], when the new centre is in the first one. *)
Theorem C78_set_params_partial : forall xl xu yl yu a1 b1 a2 b2 xl' xu' yl' yu' x y X Y s, xl <= xl' <= xu' -> xu' <= xu -> yl <= yl' <= yu' -> yu' <= yu ->
  a1 <= b1 -> a2 <= b2 -> sub (fin a1 b1) (fin a2 b2) -> (exists r, In r (fin a2 b2) /\ 1 <= r * r) ->
  In x X -> In y Y -> dstat (fin xl' xu') (fin yl' yu') (fin a1 b1) (fin a2 b2) (x, y) s ->
  exists v, td_test (td_set_params (td_new (fin xl xu) (fin yl yu) (fin a1 b1) (fin a2 b2)) (fin xl' xu') (fin yl' yu')) [X; Y] = Some v /\ sem v s.
Proof.
  intros xl xu yl yu a1 b1 a2 b2 xl' xu' yl' yu' x y X Y s Lx Lx' Ly Ly' L1 L2 Sb Hr Hx Hy Hs.
  apply (disk_general xl xu yl yu a1 b1 a2 b2 (fin xl' xu') (fin yl' yu') x y); try lra; auto; [exists xl', xu'|exists yl', yu']; repeat split; lra.
Qed.
(** The disk given by three numbers: right for every radius. *)
Theorem C78_disk_thin : forall mx my r x y X Y s, 0 <= r -> In x X -> In y Y ->
  dstat (pt mx) (pt my) (fin 0 r) (fin 0 r) (x, y) s ->
  exists v, td_test (td_new_r mx my r) [X; Y] = Some v /\ sem v s.
Proof.
  intros mx my r x y X Y s Hr Hx Hy Hs. unfold td_new_r. cbv zeta.
  assert (E1 : mk (Some 0) (Some (r * r)) = fin 0 (r * r)) by (unfold mk, fin; destruct (Rle_dec 0 (r * r)); [reflexivity|nra]).
  assert (E2 : mk (Some (- r)) (Some r) = fin (- r) r) by (unfold mk, fin; destruct (Rle_dec (- r) r); [reflexivity|lra]).
  rewrite E1, E2.
  assert (Hi : forall z, In z (fin 0 (r * r)) <-> exists a, In a (fin 0 r) /\ z = a * a).
  { intros z. split.
    - intros [Z0 Z1]. cbn in Z0, Z1. exists (sqrt z). pose proof (sqrt_pos z). pose proof (sqrt_sqrt z Z0). split; [cbn; nra|auto].
    - intros (a & A & ->). cbn in *. nra. }
  apply (body_ok _ mx mx my my 0 (r * r) 0 (r * r) x y); cbn [d_mx d_my d_rmin d_rmax d_bbox]; auto; try lra.
  - nra.
  - intros z Hz; exact Hz.
  - apply (stat_conv _ _ _ _ _ _ _ _ Hi Hi Hs).
  - intros Eb. eapply (bbox_ok (pt mx) (pt my) (pt mx) (pt my) r); eauto; [lra| |]; intros w Hw; exact Hw.
Qed.
(** With radii under 1 the bounding box, built from the square of the radius, is too small: a point inside is
    given OUT. *)
Theorem C78_disk_refuted : exists d X p, d = td_new (pt 0) (pt 0) (fin 0 (1 / 2)) (fin 0 (1 / 2)) /\ inb [fst p; snd p] X /\
  dstat (pt 0) (pt 0) (fin 0 (1 / 2)) (fin 0 (1 / 2)) p sIn /\ td_test d X = Some TOut.
Proof.
  eexists _, [pt (2 / 5); pt 0], (2 / 5, 0). refine (conj eq_refl (conj _ (conj _ _))).
  - constructor; [apply In_pt; reflexivity|constructor; [apply In_pt; reflexivity|constructor]].
  - intros a b A B. apply In_pt in A, B. subst. exists (2 / 5). split; [cbn; lra|]. unfold d2. cbn. lra.
  - unfold td_new, td_test, b_intersects, pt, fin. cbn. unfold Rleb. destruct (Rle_dec 0 0); [|lra]. cbn. unfold mk.
    destruct (Rle_dec (- (1 / 2 * (1 / 2))) (1 / 2 * (1 / 2))); [|lra]. cbn. unfold mk. destruct (Rle_dec _ _) as [H|H]; [|reflexivity].
    exfalso. unfold Rmax, Rmin in H. repeat destruct (Rle_dec _ _) in H; lra.
Qed.
(** [setParams] moves the centre and not the bounding box. *)
Theorem C78_set_params_refuted : exists d X p, d = td_set_params (td_new_r 0 0 1) (pt 10) (pt 10) /\ inb [fst p; snd p] X /\
  dstat (pt 10) (pt 10) (fin 0 1) (fin 0 1) p sIn /\ td_test d X = Some TOut.
Proof.
  eexists _, [pt 10; pt 10], (10, 10). refine (conj eq_refl (conj _ (conj _ _))).
  - constructor; [apply In_pt; reflexivity|constructor; [apply In_pt; reflexivity|constructor]].
  - intros a b A B. apply In_pt in A, B. subst. exists 0. split; [cbn; lra|]. unfold d2. cbn. lra.
  - unfold td_set_params, td_new_r, td_test, b_intersects, pt. cbn. unfold mk. destruct (Rle_dec (- (1)) 1); [|lra]. cbn. unfold mk.
    destruct (Rle_dec _ _) as [H|H]; [|reflexivity]. exfalso. unfold Rmax, Rmin in H. repeat destruct (Rle_dec _ _) in H; lra.
Qed.

(** The test of the points sent in [y] by a function with an inclusion function. *)
Theorem C78_thinf : forall (f : list R -> list R) (F : box -> box) y X p s,
  (forall p b, inb p b -> inb (f p) (F b)) -> (forall b, length (F b) = length y) -> inb p X ->
  (s = sIn <-> inb (f p) y) -> (s = sOut <-> ~ inb (f p) y) -> sem (thinf_test F y X) s.
Proof.
  intros f F y X p s HF L Hp Hi Ho. specialize (HF p X Hp). unfold thinf_test. destruct (b_is_subset (F X) y) eqn:E1.
  { cbn. apply Hi. destruct (b_is_empty (F X)) eqn:Ee.
    - exfalso. clear -HF Ee. revert HF Ee. generalize (F X), (f p). intros b q HF. destruct HF as [|w i ps b H0 _]; [discriminate|]. destruct i; [contradiction|discriminate].
    - apply (sub_pts _ _ (L X) Ee E1 _ HF). }
  destruct (b_intersects (F X) y) eqn:E2; [exact I|]. cbn. apply Ho. intros K. apply (meets_pts _ _ E2). exists (f p). auto.
Qed.
(** [ThickfIn] gives the answer of [ThickBox::is_inside] on the images: with [C55_box_inside_partial], *)
Theorem C78_thickf_partial : forall F_lb F_ub y X s r, tb_new (F_lb X) (F_ub X) <> [] -> length (tb_new (F_lb X) (F_ub X)) = length y ->
  selb (tb_new (F_lb X) (F_ub X)) s -> bstat (boxof s) y r ->
  off s y \/ (thickf_test F_lb F_ub y X <> TMaybe /\ thickf_test F_lb F_ub y X <> TMaybeOut) -> sem (thickf_test F_lb F_ub y X) r.
Proof. intros F_lb F_ub y X s r. apply C55_box_inside_partial. Qed.
(** A box moved by an uncertain vector: the status of a point is the one of the box of its images. *)
Definition images (p : list R) (dX : list (R * R)) : list (R * R) := map (fun q => (fst q + fst (snd q), fst q + snd (snd q))) (combine p dX).
Definition dbox (dX : list (R * R)) : box := map (fun d => fin (fst d) (snd d)) dX.
Lemma add_pt_wf x a : wf x -> wf (xadd x (pt a)).
Proof. destruct x as [|[l|] [h|]]; cbn; auto; lra. Qed.
Lemma add_pt_in w x a : In w (xadd x (pt a)) -> In (w - a) x.
Proof. destruct x as [|[l|] [h|]]; cbn; auto; intuition lra. Qed.
Lemma translate_sel X dX p : Forall wf X -> inb p X -> length dX = length X -> Forall (fun d => fst d <= snd d) dX ->
  selb (tb_new (tr_box true (dbox dX) X) (tr_box false (dbox dX) X)) (images p dX).
Proof.
  intros W Hp. revert dX W. induction Hp as [|w x p X H0 Hp IH]; intros [|[dl du] dX] W L Hd; try discriminate; [constructor|].
  inversion W as [|? ? Wx Ws]; subst. inversion Hd as [|? ? D Ds]; subst. cbn in D.
  unfold images, tb_new, tr_box, dbox. cbn [map combine map2 fst snd]. constructor; [|apply (IH dX); auto].
  cbn [fst snd fin]. apply new_sel; try (apply add_pt_wf; auto); try (apply add_in; auto; apply In_pt; reflexivity); try lra.
  - intros a Ha. apply add_pt_in in Ha. exists (a - du + dl). split; [|lra]. apply add_in; auto. apply In_pt; reflexivity.
  - intros b Hb. apply add_pt_in in Hb. exists (b - dl + du). split; [|lra]. apply add_in; auto. apply In_pt; reflexivity.
Qed.
Lemma map2_len f l m : length l = length m -> length (map2 f l m) = length l.
Proof. revert m. induction l as [|a l IH]; intros [|b m] H; cbn in *; auto; discriminate. Qed.
Theorem C78_translate_partial : forall X dX y p r, X <> [] -> Forall wf X -> inb p X -> length dX = length X -> length y = length X ->
  Forall (fun d => fst d <= snd d) dX -> bstat (boxof (images p dX)) y r ->
  off (images p dX) y \/ (translate_test (dbox dX) y X <> TMaybe /\ translate_test (dbox dX) y X <> TMaybeOut) ->
  sem (translate_test (dbox dX) y X) r.
Proof.
  intros X dX y p r N W Hp L Ly Hd Hs Ho. unfold translate_test in *. pose proof (translate_sel X dX p W Hp L Hd) as Sel.
  assert (Len : length (tb_new (tr_box true (dbox dX) X) (tr_box false (dbox dX) X)) = length X).
  { unfold tb_new, tr_box. rewrite map_length, combine_length, !map2_len by (unfold dbox; rewrite map_length; congruence). lia. }
  apply (C55_box_inside_partial _ _ (images p dX)); auto; [|congruence].
  intros E. rewrite E in Len. destruct X; [congruence|discriminate].
Qed.

(** ** Concrete cases *)
Lemma ex_out : dstat (fin 0 1) (pt 0) (fin 0 2) (fin 0 2) (5, 0) sOut.
Proof.
  intros a b A B (r & Hr & E). apply In_pt in B. subst. unfold d2 in E. cbn in A, Hr, E. nra.
Qed.
Example C78_ex : exists v, td_test (td_new (fin 0 1) (fin 0 0) (fin 0 2) (fin 0 2)) [fin 4 6; fin (-1) 1] = Some v /\ sem v sOut.
Proof.
  apply (C78_disk_partial 0 1 0 0 0 2 0 2 5 0); try lra.
  - intros z Hz; exact Hz.
  - exists 2. cbn. lra.
  - cbn; lra.
  - cbn; lra.
  - exact ex_out.
Qed.
(** a point of the penumbra: its distance to one possible centre is in the outer radius, and not for another one *)
Example C78_ex_pen : dstat (fin 0 1) (fin 0 0) (fin 0 2) (fin 0 2) (5 / 2, 0) sPen.
Proof.
  split.
  - intros H. destruct (H 0 0) as (r & Hr & E); try (cbn; lra). unfold d2 in E. cbn in Hr, E. nra.
  - intros H. apply (H 1 0); try (cbn; lra). exists (3 / 2). split; [cbn; lra|]. unfold d2. cbn. lra.
Qed.
Example C78_ex_translate : bstat (boxof (images [1] [(0, 1)])) [fin 0 3] sIn /\ off (images [1] [(0, 1)]) [fin 0 3].
Proof.
  split.
  - intros p Hp. inversion Hp as [|w ? ps ? A B]; subst. inversion B; subst. constructor; [|constructor]. cbn [fst snd] in A. apply In_bnd in A. cbn. lra.
  - constructor; [cbn; lra|constructor].
Qed.

Print Assumptions C78_disk_partial.
Print Assumptions C78_set_params_refuted.
Print Assumptions C78_translate_partial.
