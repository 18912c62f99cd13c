(** * The winding number of a closed polygonal line: specification and facts
    (mathematics only; used for src/core/geometry/codac_PdcInPolygon.cpp 51-93) *)
From Coq Require Import Reals Lra Lia Bool List Permutation Ranalysis5.
Import ListNotations.
From Verif Require Import Itv PropsPolar PropsSepPolar.
Open Scope R_scope.

(** ** Specification *)
Notation point := (R * R)%type.
(** the point of parameter [s] of the segment [a], [b] *)
Definition along (a b : point) (s : R) : point := (fst a + s * (fst b - fst a), snd a + s * (snd b - snd a)).
(** [m] is not on the segment *)
Definition off (m a b : point) : Prop := forall s, 0 <= s <= 1 -> along a b s <> m.
(** [d] is the variation of a continuous angle of the vector from [m] to a point that travels from [a] to [b] *)
Definition turns (m a b : point) (d : R) : Prop := exists th r : R -> R,
  (forall s, 0 <= s <= 1 -> continuity_pt th s /\ 0 < r s /\
    fst (along a b s) - fst m = r s * cos (th s) /\ snd (along a b s) - snd m = r s * sin (th s)) /\ th 1 - th 0 = d.
Fixpoint sumR (l : list R) : R := match l with [] => 0 | x :: l => x + sumR l end.
(** the segments turn [k] times around [m] *)
Definition winds (es : list (point * point)) (m : point) (k : Z) : Prop :=
  exists ds, Forall2 (fun e d => turns m (fst e) (snd e) d) es ds /\ sumR ds = IZR k * (2 * PI).
(** each point is the end of as many segments as it is the beginning *)
Definition closed (es : list (point * point)) : Prop := Permutation (map fst es) (map snd es).

(** ** The angle of a vector *)
Definition ang (x y : R) : R := 2 * atan (y / (sqrt (x * x + y * y) + x)).
Lemma ang_unique t x y r : - PI < t < PI -> 0 < r -> x = r * cos t -> y = r * sin t -> ang x y = t /\ (y <> 0 \/ 0 < x).
Proof.
  intros Ht Pr Ex Ey. pose proof PI_RGT_0.
  assert (0 < cos (t / 2)) as PC by (apply cos_gt_0; lra).
  assert (cos t = 2 * (cos (t / 2) * cos (t / 2)) - 1) as C2 by (replace t with (2 * (t / 2)) at 1 by lra; rewrite cos_2a_cos; ring).
  assert (sin t = 2 * sin (t / 2) * cos (t / 2)) as S2 by (replace t with (2 * (t / 2)) at 1 by lra; rewrite sin_2a; ring).
  assert (sqrt (x * x + y * y) = r) as SQ.
  { replace (x * x + y * y) with (r * r). apply sqrt_square; lra. pose proof (sin2_cos2 t) as Q. unfold Rsqr in Q. rewrite Ex, Ey. transitivity (r * r * (sin t * sin t + cos t * cos t)); [rewrite Q|]; ring. }
  split.
  - unfold ang. rewrite SQ. replace (y / (r + x)) with (tan (t / 2)).
    + rewrite atan_tan by lra. lra.
    + unfold tan. rewrite Ex, Ey, C2, S2. assert (0 < r * (cos (t / 2) * cos (t / 2))) as PR by (repeat apply Rmult_lt_0_compat; auto). field. split; [|lra]. apply Rgt_not_eq. lra.
  - destruct (Req_dec y 0) as [Y0|]; auto. right. assert (sin t = 0) as S0 by (apply (Rmult_eq_reg_l r); lra). rewrite S2 in S0.
    assert (sin (t / 2) = 0) as S3 by nra. pose proof (sin2_cos2 (t / 2)) as Q. unfold Rsqr in Q. rewrite S3 in Q. nra.
Qed.
Lemma ang_polar x y : (y <> 0 \/ 0 < x) -> exists r, 0 < r /\ x = r * cos (ang x y) /\ y = r * sin (ang x y) /\ - PI < ang x y < PI.
Proof.
  intros N. pose proof PI_RGT_0. destruct (polar_from (- PI) x y) as (r & t & Pr & Ex & Ey & Ht); [destruct N; [auto|left; lra]|].
  assert (t <> PI /\ t <> - PI) as [N1 N2].
  { split; intros ->; rewrite ?cos_neg, ?sin_neg, ?cos_PI, ?sin_PI in *; destruct N; lra. }
  assert (- PI < t < PI) as Ht' by lra. destruct (ang_unique t x y r Ht' Pr Ex Ey) as [Ea _]. exists r. rewrite Ea. auto.
Qed.
Lemma ang_cont f g s : continuity_pt f s -> continuity_pt g s -> (g s <> 0 \/ 0 < f s) -> continuity_pt (fun s => ang (f s) (g s)) s.
Proof.
  intros Cf Cg N. unfold ang.
  assert (0 < f s * f s + g s * g s) as P by (destruct N; nra).
  assert (0 < sqrt (f s * f s + g s * g s) + f s) as P2.
  { destruct (Rlt_dec 0 (f s)); [pose proof (sqrt_pos (f s * f s + g s * g s)); lra|]. destruct N as [N|]; [|lra].
    assert (- f s < sqrt (f s * f s + g s * g s)); [|lra]. rewrite <- (sqrt_Rsqr (- f s)) by lra. apply sqrt_lt_1_alt. unfold Rsqr. nra. }
  assert (continuity_pt (fun s => f s * f s + g s * g s) s) as C1.
  { apply (continuity_pt_plus (fun s => f s * f s) (fun s => g s * g s)); apply continuity_pt_mult; auto. }
  assert (continuity_pt (fun s => sqrt (f s * f s + g s * g s)) s) as C2.
  { apply (continuity_pt_comp (fun s => f s * f s + g s * g s) sqrt); auto. apply continuity_pt_sqrt. lra. }
  assert (continuity_pt (fun s => g s / (sqrt (f s * f s + g s * g s) + f s)) s) as C3.
  { apply (continuity_pt_div g (fun s => sqrt (f s * f s + g s * g s) + f s)); auto; [|lra].
    apply (continuity_pt_plus (fun s => sqrt (f s * f s + g s * g s)) f); auto. }
  apply (continuity_pt_mult (fun _ => 2) (fun s => atan (g s / (sqrt (f s * f s + g s * g s) + f s)))); [apply continuity_pt_const; intros ? ?; reflexivity|].
  apply (continuity_pt_comp (fun s => g s / (sqrt (f s * f s + g s * g s) + f s)) atan); auto. apply derivable_continuous_pt, derivable_pt_atan.
Qed.
(** two angles of the same vector *)
Lemma same_angle t u : cos t = cos u -> sin t = sin u -> exists k, t = u + IZR k * (2 * PI).
Proof.
  intros C S. pose proof PI_RGT_0. destruct (angle_quadrants (t - u)) as (k & Hk). exists k. set (d := t - u - IZR k * (2 * PI)) in *.
  assert (cos d = 1) as D1. { unfold d. rewrite cos_mod, cos_minus, C, S. pose proof (sin2_cos2 u) as Q. unfold Rsqr in Q. lra. }
  assert (sin d = 0) as D0. { unfold d. rewrite sin_mod, sin_minus, C, S. ring. }
  destruct (ang_unique 0 1 0 1) as [A0 _]; [lra|lra|rewrite cos_0; lra|rewrite sin_0; lra|].
  assert (d <> PI /\ d <> - PI) as [N1 N2] by (split; intros ->; rewrite ?cos_neg, ?cos_PI in D1; lra).
  destruct (ang_unique d 1 0 1) as [A1 _]; [lra|lra|lra|lra|]. assert (d = 0) by lra. unfold d in *. lra.
Qed.
Lemma same_polar t u r r' : 0 < r -> 0 < r' -> r * cos t = r' * cos u -> r * sin t = r' * sin u -> cos t = cos u /\ sin t = sin u.
Proof.
  intros P P' C S. pose proof (sin2_cos2 t) as Q. pose proof (sin2_cos2 u) as Q'. unfold Rsqr in *.
  assert (r * r = r' * r') as E.
  { transitivity (r * r * (sin t * sin t + cos t * cos t)); [rewrite Q; ring|]. transitivity (r' * r' * (sin u * sin u + cos u * cos u)); [|rewrite Q'; ring].
    replace (r * r * (sin t * sin t + cos t * cos t)) with ((r * sin t) * (r * sin t) + (r * cos t) * (r * cos t)) by ring. rewrite C, S. ring. }
  assert (r = r') as -> by nra. split; apply (Rmult_eq_reg_l r'); lra.
Qed.

(** ** The variation along a segment *)
Definition dot (m a b : point) : R := (fst a - fst m) * (fst b - fst m) + (snd a - snd m) * (snd b - snd m).
Definition cross (m a b : point) : R := (fst a - fst m) * (snd b - snd m) - (snd a - snd m) * (fst b - fst m).
Definition turn (m a b : point) : R := ang (dot m a b) (cross m a b).
Lemma along_0 a b : along a b 0 = a. Proof. destruct a. unfold along. cbn. f_equal; ring. Qed.
Lemma along_1 a b : along a b 1 = b. Proof. destruct a, b. unfold along. cbn. f_equal; ring. Qed.
Lemma off_dir m a b s : off m a b -> 0 <= s <= 1 -> cross m a (along a b s) <> 0 \/ 0 < dot m a (along a b s).
Proof.
  intros O Hs. destruct (Req_dec (cross m a (along a b s)) 0) as [C|]; auto. destruct (Rlt_dec 0 (dot m a (along a b s))) as [|D]; auto. exfalso.
  destruct m as [mx my], a as [ax ay], b as [bx b_y]. unfold cross, dot, along in C, D. cbn [fst snd] in C, D.
  set (ux := ax - mx) in *. set (uy := ay - my) in *. set (vx := ax + s * (bx - ax) - mx) in *. set (vy := ay + s * (b_y - ay) - my) in *.
  assert (uy * vx = ux * vy) as C' by lra. set (n := ux * ux + uy * uy). assert (0 <= n) as N0 by (unfold n; nra). destruct (Req_dec n 0) as [N|N].
  - assert (ux = 0 /\ uy = 0) as [U1 U2] by (unfold n in N; split; nra). apply (O 0); [lra|]. rewrite along_0. f_equal; unfold ux, uy in *; lra.
  - set (l := (ux * vx + uy * vy) / n). assert (l <= 0) as L. { unfold l. apply Rmult_le_reg_r with n; [lra|]. unfold Rdiv. rewrite Rmult_assoc, Rinv_l by lra. lra. }
    assert (vx = l * ux) as V1. { apply (Rmult_eq_reg_r n); auto. unfold l. unfold Rdiv. replace ((ux * vx + uy * vy) * / n * ux * n) with ((ux * vx + uy * vy) * ux * (/ n * n)) by ring. rewrite Rinv_l by lra. unfold n. transitivity (ux * ux * vx + uy * (uy * vx)); [ring|]. rewrite C'. ring. }
    assert (vy = l * uy) as V2. { apply (Rmult_eq_reg_r n); auto. unfold l. unfold Rdiv. replace ((ux * vx + uy * vy) * / n * uy * n) with ((ux * vx + uy * vy) * uy * (/ n * n)) by ring. rewrite Rinv_l by lra. unfold n. transitivity (ux * (ux * vy) + uy * uy * vy); [ring|]. rewrite <- C'. ring. }
    set (s' := s / (1 - l)). assert (s' * (1 - l) = s) as Es by (unfold s'; field; lra).
    assert (0 <= s' <= 1) as Hs'.
    { split; [unfold s'; apply Rmult_le_pos; [lra|]; apply Rlt_le, Rinv_0_lt_compat; lra|]. destruct (Rle_dec s' 1); auto. nra. }
    apply (O s' Hs'). unfold along. cbn [fst snd].
    assert (ux * (1 - l) + s * (bx - ax) = 0) as X1 by (unfold vx, ux in *; lra). assert (uy * (1 - l) + s * (b_y - ay) = 0) as X2 by (unfold vy, uy in *; lra).
    rewrite <- Es in X1, X2. assert (ux + s' * (bx - ax) = 0) as Y1 by (apply (Rmult_eq_reg_r (1 - l)); lra). assert (uy + s' * (b_y - ay) = 0) as Y2 by (apply (Rmult_eq_reg_r (1 - l)); lra).
    f_equal; unfold ux, uy in *; lra.
Qed.
Lemma cross_cont m a b s : continuity_pt (fun s => cross m a (along a b s)) s.
Proof. unfold cross, along. cbn [fst snd]. reg. Qed.
Lemma dot_cont m a b s : continuity_pt (fun s => dot m a (along a b s)) s.
Proof. unfold dot, along. cbn [fst snd]. reg. Qed.
Lemma turns_off m a b d : turns m a b d -> off m a b.
Proof.
  intros (th & r & H & _) s Hs E. destruct (H s Hs) as (_ & P & X & Y). rewrite E in X, Y. pose proof (sin2_cos2 (th s)) as Q. unfold Rsqr in Q.
  assert (cos (th s) = 0) by (apply (Rmult_eq_reg_l (r s)); lra). assert (sin (th s) = 0) by (apply (Rmult_eq_reg_l (r s)); lra). nra.
Qed.
Lemma turns_exists m a b : off m a b -> turns m a b (turn m a b).
Proof.
  intros O. assert (fst a - fst m <> 0 \/ snd a - snd m <> 0) as Na.
  { destruct (Req_dec (fst a - fst m) 0) as [X|]; auto. destruct (Req_dec (snd a - snd m) 0) as [Y|]; auto. exfalso. apply (O 0); [lra|]. rewrite along_0.
    destruct a, m. cbn in *. f_equal; lra. }
  destruct (polar_from 0 _ _ Na) as (rho & t0 & Pr & Ux & Uy & _).
  set (al := fun s => ang (dot m a (along a b s)) (cross m a (along a b s))).
  exists (fun s => t0 + al s), (fun s => sqrt ((fst (along a b s) - fst m) * (fst (along a b s) - fst m) + (snd (along a b s) - snd m) * (snd (along a b s) - snd m))).
  split.
  - intros s Hs. pose proof (off_dir m a b s O Hs) as D. destruct (ang_polar _ _ D) as (r & P & Dx & Dy & _). fold (al s) in Dx, Dy. split; [|split].
    + apply (continuity_pt_plus (fun _ => t0) al); [apply continuity_pt_const; intros ? ?; reflexivity|]. apply ang_cont; auto; [apply dot_cont|apply cross_cont].
    + apply sqrt_lt_R0. pose proof (O s Hs) as N. destruct (along a b s) as [px py], m as [mx my]. cbn [fst snd]. pose proof (Rle_0_sqr (px - mx)) as S1. pose proof (Rle_0_sqr (py - my)) as S2. unfold Rsqr in S1, S2.
      destruct (Req_dec px mx) as [->|Nx]; [|assert (Q := Rsqr_pos_lt (px - mx) ltac:(lra)); unfold Rsqr in Q; lra].
      destruct (Req_dec py my) as [->|Ny]; [congruence|assert (Q := Rsqr_pos_lt (py - my) ltac:(lra)); unfold Rsqr in Q; lra].
    + set (vx := fst (along a b s) - fst m) in *. set (vy := snd (along a b s) - snd m) in *.
      unfold dot, cross in Dx, Dy. fold vx vy in Dx, Dy. rewrite Ux, Uy in Dx, Dy.
      pose proof (sin2_cos2 t0) as Q. unfold Rsqr in Q.
      assert (vx = r / rho * cos (t0 + al s)) as X.
      { rewrite cos_plus. apply (Rmult_eq_reg_l rho); [|lra]. replace (rho * (r / rho * (cos t0 * cos (al s) - sin t0 * sin (al s)))) with (cos t0 * (r * cos (al s)) - sin t0 * (r * sin (al s))) by (field; lra).
        rewrite <- Dx, <- Dy. transitivity (rho * vx * (sin t0 * sin t0 + cos t0 * cos t0)); [rewrite Q; ring|ring]. }
      assert (vy = r / rho * sin (t0 + al s)) as Y.
      { rewrite sin_plus. apply (Rmult_eq_reg_l rho); [|lra]. replace (rho * (r / rho * (sin t0 * cos (al s) + cos t0 * sin (al s)))) with (sin t0 * (r * cos (al s)) + cos t0 * (r * sin (al s))) by (field; lra).
        rewrite <- Dx, <- Dy. transitivity (rho * vy * (sin t0 * sin t0 + cos t0 * cos t0)); [rewrite Q; ring|ring]. }
      assert (0 < r / rho) as PR by (apply Rdiv_lt_0_compat; auto).
      assert (sqrt (vx * vx + vy * vy) = r / rho) as ->.
      { replace (vx * vx + vy * vy) with (r / rho * (r / rho)); [apply sqrt_square; lra|]. rewrite X, Y. pose proof (sin2_cos2 (t0 + al s)) as Q'. unfold Rsqr in Q'. 
        transitivity (r / rho * (r / rho) * (sin (t0 + al s) * sin (t0 + al s) + cos (t0 + al s) * cos (t0 + al s))); [rewrite Q'|]; ring. }
      auto.
  - assert (al 0 = 0) as A0.
    { unfold al. rewrite along_0. assert (cross m a a = 0) as -> by (unfold cross; ring). unfold ang. unfold Rdiv. rewrite Rmult_0_l, atan_0. ring. }
    rewrite A0. unfold al, turn. rewrite along_1. ring.
Qed.
Lemma turns_turn m a b d : turns m a b d -> d = turn m a b.
Proof.
  intros T. pose proof (turns_off _ _ _ _ T) as O. pose proof PI_RGT_0 as PI0. destruct T as (th & r & H & E).
  destruct (H 0 ltac:(lra)) as (_ & P0 & X0 & Y0). rewrite along_0 in X0, Y0.
  assert (K : forall s, 0 <= s <= 1 -> dot m a (along a b s) = r 0 * r s * cos (th s - th 0) /\ cross m a (along a b s) = r 0 * r s * sin (th s - th 0)).
  { intros s Hs. destruct (H s Hs) as (_ & _ & X & Y). unfold dot, cross. rewrite X0, Y0, X, Y, cos_minus, sin_minus. split; ring. }
  assert (NP : forall s, 0 <= s <= 1 -> th s - th 0 <> PI /\ th s - th 0 <> - PI).
  { intros s Hs. destruct (K s Hs) as [Kd Kc]. destruct (H s Hs) as (_ & Ps & _). assert (0 < r 0 * r s) by nra. pose proof (off_dir m a b s O Hs) as D.
    split; intros Q; rewrite Q in Kd, Kc; rewrite ?cos_neg, ?sin_neg, ?cos_PI, ?sin_PI in *; lra. }
  assert (C : forall s, 0 <= s <= 1 -> continuity_pt th s) by (intros s Hs; apply H; auto).
  assert (B : - PI < th 1 - th 0 < PI).
  { split.
    - destruct (Rlt_dec (- PI) (th 1 - th 0)) as [|L]; auto. exfalso. destruct (NP 1) as [_ N1]; [lra|].
      destruct (IVT_interv (fun s => th 0 - PI - th s) 0 1) as (z & Hz & Ez); try lra.
      + intros s Hs. apply (continuity_pt_minus (fun _ => th 0 - PI) th); auto. apply continuity_pt_const; intros ? ?; reflexivity.
      + destruct (NP z Hz) as [_ N]. lra.
    - destruct (Rlt_dec (th 1 - th 0) PI) as [|L]; auto. exfalso. destruct (NP 1) as [N1 _]; [lra|].
      destruct (IVT_interv (fun s => th s - (th 0 + PI)) 0 1) as (z & Hz & Ez); try lra.
      + intros s Hs. apply (continuity_pt_minus th (fun _ => th 0 + PI)); auto. apply continuity_pt_const; intros ? ?; reflexivity.
      + destruct (NP z Hz) as [N _]. lra. }
  destruct (K 1 ltac:(lra)) as [Kd Kc]. rewrite along_1 in Kd, Kc. destruct (H 1 ltac:(lra)) as (_ & P1 & _).
  destruct (ang_unique (th 1 - th 0) (dot m a b) (cross m a b) (r 0 * r 1)) as [A _]; auto; [nra|]. unfold turn. lra.
Qed.

(** ** The whole polygon *)
Definition turn_sum (es : list (point * point)) (m : point) : R := sumR (map (fun e => turn m (fst e) (snd e)) es).
Lemma winds_sum es m k : winds es m k -> turn_sum es m = IZR k * (2 * PI) /\ Forall (fun e => off m (fst e) (snd e)) es.
Proof.
  intros (ds & H & <-). unfold turn_sum. clear k. induction H as [|e d es ds T _ (IH1 & IH2)]; [split; [reflexivity|constructor]|].
  cbn. rewrite (turns_turn _ _ _ _ T), IH1. split; [reflexivity|constructor; auto]. exact (turns_off _ _ _ _ T).
Qed.
Lemma sum_winds es m k : Forall (fun e => off m (fst e) (snd e)) es -> turn_sum es m = IZR k * (2 * PI) -> winds es m k.
Proof.
  intros H E. exists (map (fun e => turn m (fst e) (snd e)) es). split; auto. clear E. induction H; cbn; constructor; auto. apply turns_exists; auto.
Qed.
Lemma winds_unique es m k k' : winds es m k -> winds es m k' -> k = k'.
Proof.
  intros H H'. apply winds_sum in H as [H _]. apply winds_sum in H' as [H' _]. pose proof PI_RGT_0. apply eq_IZR. apply (Rmult_eq_reg_r (2 * PI)); lra.
Qed.
(** an angle for each vector *)
Definition arg (v : point) : R := if Req_EM_T (snd v) 0 then (if Rlt_dec 0 (fst v) then 0 else PI) else ang (fst v) (snd v).
Lemma arg_polar v : v <> (0, 0) -> exists r, 0 < r /\ fst v = r * cos (arg v) /\ snd v = r * sin (arg v).
Proof.
  destruct v as [x y]. intros N. unfold arg. cbn [fst snd]. destruct (Req_EM_T y 0) as [->|Ny].
  - destruct (Rlt_dec 0 x); [exists x; rewrite cos_0, sin_0; split; [auto|lra]|]. assert (x <> 0) by congruence. exists (- x). rewrite cos_PI, sin_PI. split; lra.
  - destruct (ang_polar x y) as (r & P & X & Y & _); auto. exists r. auto.
Qed.
Definition vec (m a : point) : point := (fst a - fst m, snd a - snd m).
Lemma turn_arg m a b : off m a b -> exists k, turn m a b = arg (vec m b) - arg (vec m a) + IZR k * (2 * PI).
Proof.
  intros O. assert (forall s, 0 <= s <= 1 -> vec m (along a b s) <> (0, 0)) as N.
  { intros s Hs Q. apply (O s Hs). destruct (along a b s) as [px py], m as [mx my]. unfold vec in Q. cbn in Q. injection Q as Q1 Q2. f_equal; lra. }
  pose proof (N 0 ltac:(lra)) as Na. pose proof (N 1 ltac:(lra)) as Nb. rewrite along_0 in Na. rewrite along_1 in Nb.
  destruct (arg_polar _ Na) as (ra & Pa & Xa & Ya). destruct (arg_polar _ Nb) as (rb & Pb & Xb & Yb).
  pose proof (off_dir m a b 1 O ltac:(lra)) as D. rewrite along_1 in D. destruct (ang_polar _ _ D) as (r & P & X & Y & _). fold (turn m a b) in X, Y.
  set (ta := arg (vec m a)) in *. set (tb := arg (vec m b)) in *. unfold vec in Xa, Ya, Xb, Yb. cbn [fst snd] in Xa, Ya, Xb, Yb.
  destruct (same_polar (turn m a b) (tb - ta) r (ra * rb)) as [C S]; auto.
  - nra.
  - rewrite <- X. unfold dot. rewrite Xa, Xb, Ya, Yb, cos_minus. ring.
  - rewrite <- Y. unfold cross. rewrite Xa, Xb, Ya, Yb, sin_minus. ring.
  - destruct (same_angle _ _ C S) as (k & K). exists k. exact K.
Qed.
Lemma sumR_perm l l' : Permutation l l' -> sumR l = sumR l'.
Proof. induction 1; cbn; lra. Qed.
Lemma turn_sum_arg es m : Forall (fun e => off m (fst e) (snd e)) es ->
  exists k, turn_sum es m = sumR (map (fun p => arg (vec m p)) (map snd es)) - sumR (map (fun p => arg (vec m p)) (map fst es)) + IZR k * (2 * PI).
Proof.
  unfold turn_sum. induction 1 as [|e es O _ (k & IH)]; [exists 0%Z; cbn; lra|]. destruct (turn_arg _ _ _ O) as (k' & K). exists (k + k')%Z. cbn. rewrite K, IH, plus_IZR. ring.
Qed.
(** a closed polygon turns a whole number of times around a point that is not on it *)
Lemma winds_exists es m : closed es -> Forall (fun e => off m (fst e) (snd e)) es -> exists k, winds es m k.
Proof.
  intros C O. destruct (turn_sum_arg es m O) as (k & K). exists k. apply sum_winds; auto. rewrite K. rewrite (sumR_perm _ _ (Permutation_map (fun p => arg (vec m p)) C)). ring.
Qed.
Lemma cross_cont_m p q a b s : continuity_pt (fun s => cross (along p q s) a b) s.
Proof. unfold cross, along. cbn [fst snd]. reg. Qed.
Lemma dot_cont_m p q a b s : continuity_pt (fun s => dot (along p q s) a b) s.
Proof. unfold dot, along. cbn [fst snd]. reg. Qed.
Lemma turn_sum_cont es p q s : Forall (fun e => off (along p q s) (fst e) (snd e)) es -> continuity_pt (fun s => turn_sum es (along p q s)) s.
Proof.
  unfold turn_sum. induction 1 as [|e es O _ IH]; cbn [map sumR]; [apply continuity_pt_const; intros ? ?; reflexivity|].
  apply (continuity_pt_plus (fun s => turn (along p q s) (fst e) (snd e)) (fun s => sumR (map (fun e => turn (along p q s) (fst e) (snd e)) es))); auto.
  unfold turn. apply ang_cont; [apply dot_cont_m|apply cross_cont_m|]. pose proof (off_dir _ _ _ 1 O ltac:(lra)) as D. rewrite along_1 in D. exact D.
Qed.
(** the number is the same at two points joined by a segment that does not meet the polygon *)
Lemma winds_constant es p q k : closed es -> (forall s, 0 <= s <= 1 -> Forall (fun e => off (along p q s) (fst e) (snd e)) es) -> winds es p k -> winds es q k.
Proof.
  intros C O H. pose proof PI_RGT_0 as P. assert (Z : forall s, 0 <= s <= 1 -> exists k, turn_sum es (along p q s) = IZR k * (2 * PI)).
  { intros s Hs. destruct (winds_exists es _ C (O s Hs)) as (k' & K). exists k'. apply winds_sum in K. tauto. }
  destruct (winds_exists es (along p q 1) C (O 1 ltac:(lra))) as (k' & K'). rewrite along_1 in K'.
  assert (k' = k) as <-; auto. apply winds_sum in H as [H _]. apply winds_sum in K' as [K _].
  assert (Cs : forall s, 0 <= s <= 1 -> continuity_pt (fun s => turn_sum es (along p q s)) s) by (intros s Hs; apply turn_sum_cont; auto).
  destruct (Z_lt_le_dec k k') as [L|L].
  - exfalso. assert (IZR (k + 1) <= IZR k') as L' by (apply IZR_le; lia). rewrite plus_IZR in L'.
    destruct (IVT_interv (fun s => turn_sum es (along p q s) - (IZR k * (2 * PI) + PI)) 0 1) as (z & Hz & Ez).
    + intros s Hs. apply (continuity_pt_minus (fun s => turn_sum es (along p q s)) (fun _ => IZR k * (2 * PI) + PI)); auto. apply continuity_pt_const; intros ? ?; reflexivity.
    + lra.
    + rewrite along_0, H. lra.
    + rewrite along_1, K. nra.
    + destruct (Z z Hz) as (j & J). rewrite J in Ez. assert (2 * IZR j = IZR (2 * k + 1)) as Q. { rewrite plus_IZR, mult_IZR. apply (Rmult_eq_reg_r PI); lra. }
      rewrite <- mult_IZR in Q. apply eq_IZR in Q. lia.
  - destruct (Z.eq_dec k' k) as [|N]; auto. exfalso. assert (IZR (k' + 1) <= IZR k) as L' by (apply IZR_le; lia). rewrite plus_IZR in L'.
    destruct (IVT_interv (fun s => IZR k' * (2 * PI) + PI - turn_sum es (along p q s)) 0 1) as (z & Hz & Ez).
    + intros s Hs. apply (continuity_pt_minus (fun _ => IZR k' * (2 * PI) + PI) (fun s => turn_sum es (along p q s))); auto. apply continuity_pt_const; intros ? ?; reflexivity.
    + lra.
    + rewrite along_0, H. nra.
    + rewrite along_1, K. lra.
    + destruct (Z z Hz) as (j & J). rewrite J in Ez. assert (2 * IZR j = IZR (2 * k' + 1)) as Q. { rewrite plus_IZR, mult_IZR. apply (Rmult_eq_reg_r PI); lra. }
      rewrite <- mult_IZR in Q. apply eq_IZR in Q. lia.
Qed.

(** ** Convex polygons *)
Lemma ang_pos x y : 0 < y -> 0 < ang x y.
Proof.
  intros P. destruct (ang_polar x y) as (r & Pr & X & Y & B); [left; lra|]. destruct (Rlt_dec 0 (ang x y)) as [|N]; auto. exfalso.
  assert (0 <= sin (- ang x y)) as S by (apply sin_ge_0; lra). rewrite sin_neg in S. nra.
Qed.
(** a point on the left of all the segments is inside *)
Lemma winds_left es m k : es <> [] -> Forall (fun e => 0 < cross m (fst e) (snd e)) es -> winds es m k -> (0 < k)%Z.
Proof.
  intros N H W. apply winds_sum in W as [W _]. pose proof PI_RGT_0. assert (0 < turn_sum es m) as P.
  { clear W. unfold turn_sum. destruct H as [|e es He H]; [congruence|]. cbn. apply Rplus_lt_le_0_compat; [apply ang_pos; auto|].
    clear N He e. induction H as [|e es He _ IH]; cbn; [lra|]. apply Rplus_le_le_0_compat; [|auto]. apply Rlt_le, ang_pos; auto. }
  apply lt_IZR. rewrite W in P. nra.
Qed.
Lemma cos_pos_bound t : - PI < t < PI -> 0 < cos t -> - (PI / 2) < t < PI / 2.
Proof.
  intros B C. pose proof PI_RGT_0. split.
  - destruct (Rlt_dec (- (PI / 2)) t) as [|N]; auto. exfalso. assert (cos (- t) <= 0) as Q by (apply cos_le_0; lra). rewrite cos_neg in Q. lra.
  - destruct (Rlt_dec t (PI / 2)) as [|N]; auto. exfalso. assert (cos t <= 0) as Q by (apply cos_le_0; lra). lra.
Qed.
(** a point separated from all the vertices by a line is outside *)
Lemma winds_half es m n k : closed es -> Forall (fun e => 0 < fst n * (fst (fst e) - fst m) + snd n * (snd (fst e) - snd m) /\
  0 < fst n * (fst (snd e) - fst m) + snd n * (snd (snd e) - snd m)) es -> winds es m k -> k = 0%Z.
Proof.
  intros C H W. apply winds_sum in W as [W O]. pose proof PI_RGT_0 as PI0.
  set (h := fun p : point => ang (fst n * (fst p - fst m) + snd n * (snd p - snd m)) (fst n * (snd p - snd m) - snd n * (fst p - fst m))).
  assert (E : turn_sum es m = sumR (map h (map snd es)) - sumR (map h (map fst es))).
  { clear W C. unfold turn_sum. revert O. induction H as [|[a b] es [Ha Hb] _ IH]; intros O; cbn; [lra|]. inversion O as [|? ? Oe Oes]; subst. rewrite IH by auto. cbn [fst snd] in *.
    assert (turn m a b = h b - h a) as ->; [|lra].
    pose proof (off_dir m a b 1 Oe ltac:(lra)) as D. rewrite along_1 in D. destruct (ang_polar _ _ D) as (r & P & X & Y & B). fold (turn m a b) in X, Y, B.
    destruct (ang_polar (fst n * (fst a - fst m) + snd n * (snd a - snd m)) (fst n * (snd a - snd m) - snd n * (fst a - fst m))) as (ra & Pa & Xa & Ya & Ba); [auto|]. fold (h a) in Xa, Ya, Ba.
    destruct (ang_polar (fst n * (fst b - fst m) + snd n * (snd b - snd m)) (fst n * (snd b - snd m) - snd n * (fst b - fst m))) as (rb & Pb & Xb & Yb & Bb); [auto|]. fold (h b) in Xb, Yb, Bb.
    assert (- (PI / 2) < h a < PI / 2) as Ba' by (apply cos_pos_bound; auto; rewrite Xa in Ha; nra).
    assert (- (PI / 2) < h b < PI / 2) as Bb' by (apply cos_pos_bound; auto; rewrite Xb in Hb; nra).
    set (nn := fst n * fst n + snd n * snd n). assert (0 < nn) as Pn.
    { unfold nn. destruct (Req_dec (fst n) 0) as [Q|Q]; [|nra]. destruct (Req_dec (snd n) 0) as [Q'|Q']; [|nra]. rewrite Q, Q' in Ha. lra. }
    unfold turn. destruct (ang_unique (h b - h a) (dot m a b) (cross m a b) (ra * rb / nn)) as [A _]; [lra| | | |exact A].
    - apply Rdiv_lt_0_compat; [nra|auto].
    - apply (Rmult_eq_reg_l nn); [|lra]. replace (nn * (ra * rb / nn * cos (h b - h a))) with (ra * rb * cos (h b - h a)) by (field; lra). rewrite cos_minus.
      replace (ra * rb * (cos (h b) * cos (h a) + sin (h b) * sin (h a))) with ((ra * cos (h a)) * (rb * cos (h b)) + (ra * sin (h a)) * (rb * sin (h b))) by ring.
      rewrite <- Xa, <- Xb, <- Ya, <- Yb. unfold nn, dot. ring.
    - apply (Rmult_eq_reg_l nn); [|lra]. replace (nn * (ra * rb / nn * sin (h b - h a))) with (ra * rb * sin (h b - h a)) by (field; lra). rewrite sin_minus.
      replace (ra * rb * (sin (h b) * cos (h a) - cos (h b) * sin (h a))) with ((ra * cos (h a)) * (rb * sin (h b)) - (ra * sin (h a)) * (rb * cos (h b))) by ring.
      rewrite <- Xa, <- Xb, <- Ya, <- Yb. unfold nn, cross. ring. }
  rewrite (sumR_perm _ _ (Permutation_map h C)) in E. rewrite E in W. apply eq_IZR. nra.
Qed.
