(** * C118: walls and ray casting *)

From Coq Require Import Reals Lra Bool List Arith Lia Psatz.
Import ListNotations.
From Verif Require Import Itv Wall.
Open Scope R_scope.

(** ** Spec *)
(** [p] is a point of the segment *)
Definition on_wall (w : wall) (p : point) : Prop := exists s, 0 <= s <= 1 /\
  fst p = fst (w_c1 w) + s * (fst (w_c2 w) - fst (w_c1 w)) /\ snd p = snd (w_c1 w) + s * (snd (w_c2 w) - snd (w_c1 w)).
(** [p] is a point of the line of the wall *)
Definition on_line (w : wall) (p : point) : Prop := exists s,
  fst p = fst (w_c1 w) + s * (fst (w_c2 w) - fst (w_c1 w)) /\ snd p = snd (w_c1 w) + s * (snd (w_c2 w) - snd (w_c1 w)).
(** the wall is met at the distance [l] in the direction [a] *)
Definition met (w : wall) (p : point) (a l : R) : Prop := 0 <= l /\ on_wall w (fst p + l * cos a, snd p + l * sin a).
(** the wall has the direction [a] (or is a single point) *)
Definition aligned (w : wall) (a : R) : Prop := cos a * (snd (w_c2 w) - snd (w_c1 w)) = sin a * (fst (w_c2 w) - fst (w_c1 w)).

Lemma sq_pos u v : u <> 0 \/ v <> 0 -> 0 < u * u + v * v.
Proof. intros [N|N]; nra. Qed.
Lemma contains_at w s p : fst (w_c2 w) - fst (w_c1 w) <> 0 \/ snd (w_c2 w) - snd (w_c1 w) <> 0 ->
  fst p = fst (w_c1 w) + s * (fst (w_c2 w) - fst (w_c1 w)) -> snd p = snd (w_c1 w) + s * (snd (w_c2 w) - snd (w_c1 w)) ->
  (w_contains w p = true <-> 0 <= s <= 1).
Proof.
  intros N E1 E2. unfold w_contains. cbn [fst snd]. rewrite E1, E2. pose proof (sq_pos _ _ N) as P.
  set (u := fst (w_c2 w) - fst (w_c1 w)) in *. set (v := snd (w_c2 w) - snd (w_c1 w)) in *.
  replace (u * (fst (w_c1 w) + s * u - fst (w_c1 w)) + v * (snd (w_c1 w) + s * v - snd (w_c1 w))) with (s * (u * u + v * v)) by ring.
  rewrite andb_true_iff, !Rleb_true. split; intros H.
  - destruct H as (H1 & H2). split; [apply (Rmult_le_reg_r (u * u + v * v)); lra|apply (Rmult_le_reg_r (u * u + v * v)); lra].
  - split; nra.
Qed.

(** C118: for the points of the line of a wall that is not a single point, [contains] says whether they are on the wall. *)
Theorem C118_contains_partial : forall w p, w_c1 w <> w_c2 w -> on_line w p -> (w_contains w p = true <-> on_wall w p).
Proof.
  intros w p N (s & E1 & E2).
  assert (N' : fst (w_c2 w) - fst (w_c1 w) <> 0 \/ snd (w_c2 w) - snd (w_c1 w) <> 0).
  { destruct (Req_dec (fst (w_c2 w) - fst (w_c1 w)) 0) as [Z|]; auto. destruct (Req_dec (snd (w_c2 w) - snd (w_c1 w)) 0) as [Z'|]; auto. exfalso. apply N.
    destruct (w_c1 w), (w_c2 w). cbn in *. f_equal; lra. }
  split; intros H.
  - exists s. split; auto. apply (contains_at w s p); auto.
  - destruct H as (s' & Hs & F1 & F2). apply (contains_at w s' p); auto.
Qed.
(** a point far from the wall, in front of it, is said to be contained *)
Theorem C118_contains_refuted : exists w p, w_c1 w <> w_c2 w /\ w_contains w p = true /\ ~ on_wall w p.
Proof.
  exists (mkW (0, 0) (1, 0)), (1 / 2, 5). split; [|split].
  - cbn. intros E. injection E. lra.
  - unfold w_contains. cbn. apply andb_true_iff. rewrite !Rleb_true. lra.
  - intros (s & _ & _ & E). cbn in E. lra.
Qed.

(** the crossing point of two lines *)
Lemma cross_spec w1 w2 : let U := (fst (w_c2 w1) - fst (w_c1 w1), snd (w_c2 w1) - snd (w_c1 w1)) in let V := (fst (w_c2 w2) - fst (w_c1 w2), snd (w_c2 w2) - snd (w_c1 w2)) in
  let det := fst U * snd V - snd U * fst V in
  match w_cross w1 w2 with
  | None => det = 0
  | Some q => det <> 0 /\ (exists l, fst q = fst (w_c1 w1) + l * fst U /\ snd q = snd (w_c1 w1) + l * snd U) /\
              (exists s, fst q = fst (w_c1 w2) + s * fst V /\ snd q = snd (w_c1 w2) + s * snd V)
  end.
Proof.
  destruct w1 as [[x1 y1] [x2 y2]], w2 as [[x3 y3] [x4 y4]]. unfold w_cross. cbn [w_c1 w_c2 fst snd]. cbn zeta.
  destruct (Reqb _ 0) eqn:E; [apply Reqb_true in E|apply Reqb_false in E]; [lra|]. cbn [fst snd].
  assert (D : (x2 - x1) * (y4 - y3) - (y2 - y1) * (x4 - x3) <> 0) by lra. split; [lra|].
  set (det := (x2 - x1) * (y4 - y3) - (y2 - y1) * (x4 - x3)) in *.
  replace ((x1 - x2) * (y3 - y4) - (y1 - y2) * (x3 - x4)) with det by (unfold det; ring). split.
  - exists (((x3 - x1) * (y4 - y3) - (y3 - y1) * (x4 - x3)) / det). split; apply (Rmult_eq_reg_r det); auto; unfold Rdiv; rewrite ?Rmult_plus_distr_r.
    + replace (_ * / det * det) with ((x1 * y2 - y1 * x2) * (x3 - x4) - (x1 - x2) * (x3 * y4 - y3 * x4)) by (field; auto).
      replace (_ * / det * (x2 - x1) * det) with (((x3 - x1) * (y4 - y3) - (y3 - y1) * (x4 - x3)) * (x2 - x1)) by (field; auto). unfold det. ring.
    + replace (_ * / det * det) with ((x1 * y2 - y1 * x2) * (y3 - y4) - (y1 - y2) * (x3 * y4 - y3 * x4)) by (field; auto).
      replace (_ * / det * (y2 - y1) * det) with (((x3 - x1) * (y4 - y3) - (y3 - y1) * (x4 - x3)) * (y2 - y1)) by (field; auto). unfold det. ring.
  - exists (((x3 - x1) * (y2 - y1) - (y3 - y1) * (x2 - x1)) / det). split; apply (Rmult_eq_reg_r det); auto; unfold Rdiv; rewrite ?Rmult_plus_distr_r.
    + replace (_ * / det * det) with ((x1 * y2 - y1 * x2) * (x3 - x4) - (x1 - x2) * (x3 * y4 - y3 * x4)) by (field; auto).
      replace (_ * / det * (x4 - x3) * det) with (((x3 - x1) * (y2 - y1) - (y3 - y1) * (x2 - x1)) * (x4 - x3)) by (field; auto). unfold det. ring.
    + replace (_ * / det * det) with ((x1 * y2 - y1 * x2) * (y3 - y4) - (y1 - y2) * (x3 * y4 - y3 * x4)) by (field; auto).
      replace (_ * / det * (y4 - y3) * det) with (((x3 - x1) * (y2 - y1) - (y3 - y1) * (x2 - x1)) * (y4 - y3)) by (field; auto). unfold det. ring.
Qed.
Lemma det_unique (u v x y l s l' s' : R) (c d e f : R) : u * y - v * x <> 0 -> c + l * u = e + s * x -> d + l * v = f + s * y ->
  c + l' * u = e + s' * x -> d + l' * v = f + s' * y -> l = l' /\ s = s'.
Proof.
  intros N E1 E2 E3 E4. assert (A : (l - l') * (u * y - v * x) = 0). { replace ((l - l') * (u * y - v * x)) with (((c + l * u) - (c + l' * u)) * y - ((d + l * v) - (d + l' * v)) * x) by ring. rewrite E1, E2, E3, E4. ring. }
  assert (B : (s - s') * (u * y - v * x) = 0). { replace ((s - s') * (u * y - v * x)) with (u * ((f + s * y) - (f + s' * y)) - v * ((e + s * x) - (e + s' * x))) by ring. rewrite <- E1, <- E2, <- E3, <- E4. ring. }
  apply Rmult_integral in A. apply Rmult_integral in B. destruct A as [A|A]; [|contradiction]. destruct B as [B|B]; [|contradiction]. lra.
Qed.
(** C118: the intersection of two walls that are not parallel is the only point of both lines; it is undefined for parallel walls. *)
Theorem C118_cross : forall w1 w2,
  match w_cross w1 w2 with
  | Some q => on_line w1 q /\ on_line w2 q /\ forall q', on_line w1 q' -> on_line w2 q' -> q' = q
  | None => (fst (w_c2 w1) - fst (w_c1 w1)) * (snd (w_c2 w2) - snd (w_c1 w2)) = (snd (w_c2 w1) - snd (w_c1 w1)) * (fst (w_c2 w2) - fst (w_c1 w2))
  end.
Proof.
  intros w1 w2. pose proof (cross_spec w1 w2) as H. cbn zeta in H. cbn [fst snd] in H. destruct (w_cross w1 w2) as [q|]; [|lra].
  destruct H as (D & (l & A1 & A2) & (s & B1 & B2)). split; [exists l; auto|split; [exists s; auto|]].
  intros q' (l' & C1 & C2) (s' & D1 & D2). destruct (det_unique _ _ _ _ l s l' s' (fst (w_c1 w1)) (snd (w_c1 w1)) (fst (w_c1 w2)) (snd (w_c1 w2)) D) as (<- & _); try lra.
  destruct q, q'. cbn in *. f_equal; lra.
Qed.

(** ** Distances along a ray *)
Definition counted (p : point) (a : R) (w : wall) : option R := dist_step p (ray p a) None w.
Lemma unit_sq a : cos a * cos a + sin a * sin a = 1.
Proof. pose proof (sin2_cos2 a) as H. unfold Rsqr in H. lra. Qed.
Lemma counted_spec p a w : match counted p a w with
  | Some d => exists l, d = l * l /\ l <= 999999 /\ met w p a l /\ ~ aligned w a
  | None => forall l, met w p a l -> l <= 999999 -> aligned w a
  end /\ forall l l', ~ aligned w a -> met w p a l -> met w p a l' -> l = l'.
Proof.
  assert (Uq : forall l l', ~ aligned w a -> met w p a l -> met w p a l' -> l = l').
  { intros l l' N (_ & s & _ & A1 & A2) (_ & s' & _ & B1 & B2). cbn [fst snd] in *. unfold aligned in N.
    eapply (det_unique _ _ _ _ l s l' s'); [|exact A1|exact A2|exact B1|exact B2]. lra. }
  split; [|exact Uq]. unfold counted, dist_step. pose proof (cross_spec (ray p a) w) as H. pose proof (unit_sq a) as Un. cbn zeta in H. unfold ray in *. cbn [w_c1 w_c2 fst snd] in H.
  destruct (w_cross _ w) as [q|] eqn:E.
  2:{ intros l _ _. unfold aligned. assert (999999 * (cos a * (snd (w_c2 w) - snd (w_c1 w)) - sin a * (fst (w_c2 w) - fst (w_c1 w))) = 0) by lra. lra. }
  destruct H as (D & (k & A1 & A2) & (s & B1 & B2)).
  assert (NA : ~ aligned w a). { unfold aligned. intros Q. apply D. replace (fst p + 999999 * cos a - fst p) with (999999 * cos a) by ring. replace (snd p + 999999 * sin a - snd p) with (999999 * sin a) by ring. nra. }
  assert (Nw : fst (w_c2 w) - fst (w_c1 w) <> 0 \/ snd (w_c2 w) - snd (w_c1 w) <> 0).
  { destruct (Req_dec (fst (w_c2 w) - fst (w_c1 w)) 0) as [Z|]; auto. destruct (Req_dec (snd (w_c2 w) - snd (w_c1 w)) 0) as [Z'|]; auto. exfalso. apply NA. unfold aligned. rewrite Z, Z'. ring. }
  assert (C1 := contains_at w s q Nw B1 B2).
  assert (C0 : w_contains (mkW p (fst p + 999999 * cos a, snd p + 999999 * sin a)) q = true <-> 0 <= k <= 1).
  { apply contains_at; auto. cbn [w_c1 w_c2 fst snd]. replace (fst p + 999999 * cos a - fst p) with (999999 * cos a) by ring. replace (snd p + 999999 * sin a - snd p) with (999999 * sin a) by ring.
    destruct (Req_dec (cos a) 0) as [Z|]; [right|left]; [intros Q; assert (sin a = 0) by lra; nra|lra]. }
  assert (F1 : fst q = fst p + 999999 * k * cos a) by (rewrite A1; ring). assert (F2 : snd q = snd p + 999999 * k * sin a) by (rewrite A2; ring).
  destruct (w_contains w q) eqn:E1; [destruct (w_contains (mkW p _) q) eqn:E0|]; cbn [negb orb].
  - apply proj1 in C1, C0. specialize (C1 eq_refl). specialize (C0 eq_refl). exists (999999 * k). split; [|split; [lra|split; [|exact NA]]].
    + rewrite F1, F2. replace ((fst p - (fst p + 999999 * k * cos a)) ^ 2 + (snd p - (snd p + 999999 * k * sin a)) ^ 2) with (999999 * k * (999999 * k) * (cos a * cos a + sin a * sin a)) by ring. rewrite Un. ring.
    + split; [lra|]. exists s. cbn [fst snd]. split; [auto|]. rewrite <- F1, <- F2. auto.
  - intros l (L0 & s' & Hs & M1 & M2) L1. exfalso. cbn [fst snd] in *. assert (l = 999999 * k) by (eapply (det_unique (cos a) (sin a) _ _ l s' (999999 * k) s); [|exact M1|exact M2|rewrite <- F1; exact B1|rewrite <- F2; exact B2]; unfold aligned in NA; lra).
    assert (false = true) by (apply C0; lra). discriminate.
  - intros l (L0 & s' & Hs & M1 & M2) L1. exfalso. cbn [fst snd] in *. assert (s' = s) by (eapply (det_unique (cos a) (sin a) _ _ l s' (999999 * k) s); [|exact M1|exact M2|rewrite <- F1; exact B1|rewrite <- F2; exact B2]; unfold aligned in NA; lra).
    assert (false = true) by (apply C1; lra). discriminate.
Qed.
Definition omin (m : option R) (d : option R) : option R :=
  match d, m with None, _ => m | Some d, None => Some d | Some d, Some m => Some (if Rltb d m then d else m) end.
Lemma step_omin p a m w : dist_step p (ray p a) m w = omin m (counted p a w).
Proof. unfold counted, dist_step, omin. destruct (w_cross _ w); [|destruct m; auto]. destruct (_ || _); destruct m; auto. Qed.
Lemma fold_omin {T} (f : T -> option R) l : forall m, match fold_left (fun m w => omin m (f w)) l m with
  | Some d => (m = Some d \/ exists w, List.In w l /\ f w = Some d) /\ (forall m', m = Some m' -> d <= m') /\ forall w d', List.In w l -> f w = Some d' -> d <= d'
  | None => m = None /\ forall w, List.In w l -> f w = None
  end.
Proof.
  induction l as [|x l IH]; intros m; cbn [fold_left].
  { destruct m as [d|]; [|split; [auto|intros w []]]. split; [auto|split; [intros m' [= ->]; lra|intros w d' []]]. }
  specialize (IH (omin m (f x))). destruct (fold_left _ l _) as [d|].
  - destruct IH as (A & B & C). split; [|split].
    + destruct A as [A|(w & Hw & A)]; [|right; exists w; split; [right|]; auto]. unfold omin in A. destruct (f x) as [e|] eqn:E; [|auto]. destruct m as [m|]; [|right; exists x; split; [left|congruence]; auto].
      destruct (Rltb e m); [right; exists x; split; [left|congruence]; auto|auto].
    + intros m' ->. unfold omin in B. destruct (f x) as [e|] eqn:E; [|apply B; auto]. destruct (Rltb e m') eqn:Q; [apply Rltb_true in Q; specialize (B _ eq_refl); lra|apply B; auto].
    + intros w d' [<-|Hw] Ew; [|eauto]. unfold omin in B. rewrite Ew in B. destruct m as [m|]; [|apply B; auto]. specialize (B _ eq_refl). destruct (Rltb d' m) eqn:Q; auto. apply Rltb_false in Q. lra.
  - destruct IH as (A & B). unfold omin in A. destruct (f x) as [e|] eqn:E; [destruct m; discriminate|]. split; auto. intros w [<-|Hw]; auto.
Qed.

(** C118: the distance in a direction is the one of the first wall met among those that are not aligned with the direction, up to 999999;
    it is infinite when there is none. *)
Theorem C118_dist : forall v p a, match dist_to_walls v p a with
  | Some d => (exists w, List.In w v /\ ~ aligned w a /\ met w p a d) /\ d <= 999999 /\ forall w l, List.In w v -> ~ aligned w a -> met w p a l -> d <= l
  | None => forall w l, List.In w v -> ~ aligned w a -> met w p a l -> 999999 < l
  end.
Proof.
  intros v p a. unfold dist_to_walls.
  assert (E : fold_left (dist_step p (ray p a)) v None = fold_left (fun m w => omin m (counted p a w)) v None).
  { generalize (@None R). induction v as [|w v IH]; intros m; cbn [fold_left]; auto. rewrite step_omin. apply IH. }
  rewrite E. clear E. pose proof (fold_omin (counted p a) v None) as H. destruct (fold_left _ v None) as [d|]; cbn [option_map].
  - destruct H as ([Q|(w & Hw & Ew)] & _ & Mn); [discriminate|]. destruct (counted_spec p a w) as (S & _). rewrite Ew in S. destruct S as (l & -> & L1 & Ml & NA).
    assert (L0 : 0 <= l) by apply Ml. rewrite sqrt_square by auto. split; [exists w; auto|]. split; [auto|].
    intros w' l' Hw' NA' Ml'. destruct (counted_spec p a w') as (S' & Un). destruct (counted p a w') as [d'|] eqn:Ec.
    + destruct S' as (k & -> & K1 & Mk & _). assert (l' = k) by (apply Un; auto). subst. specialize (Mn w' _ Hw' Ec). assert (0 <= k) by apply Mk. nra.
    + destruct (Rle_dec l' 999999) as [Q|Q]; [|lra]. exfalso. apply NA'. eapply S'; eauto.
  - destruct H as (_ & Nn). intros w l Hw NA Ml. destruct (counted_spec p a w) as (S & _). rewrite (Nn w Hw) in S. destruct (Rle_dec l 999999) as [Q|Q]; [|lra]. exfalso. apply NA. eapply S; eauto.
Qed.
(** a wall seen from its end, in its own direction, is not detected *)
Theorem C118_aligned_refuted : exists w p a l, met w p a l /\ l <= 999999 /\ w_c1 w <> w_c2 w /\ dist_to_walls [w] p a = None.
Proof.
  exists (mkW (1, 0) (2, 0)), (0, 0), 0, 1. split; [|split; [lra|split]].
  - split; [lra|]. exists 0. cbn. rewrite cos_0, sin_0. lra.
  - cbn. intros E. injection E. lra.
  - unfold dist_to_walls, ray. cbn [fold_left fst snd]. unfold dist_step, w_cross. cbn [w_c1 w_c2 fst snd]. rewrite cos_0, sin_0. rewrite (proj2 (Reqb_true _ 0)) by lra. reflexivity.
Qed.

(** ** Contacts *)
Lemma bearings_spec M n : forall a0 a, List.In a (bearings M n a0) <-> exists k, (k < n)%nat /\ a = a0 + INR k / 10 /\ a < 2 * M.
Proof.
  induction n as [|n IH]; intros a0 a; cbn [bearings].
  { split; [intros []|intros (k & Hk & _); lia]. }
  destruct (Rltb a0 (2 * M)) eqn:E; [apply Rltb_true in E|apply Rltb_false in E].
  - cbn [List.In]. rewrite IH. split.
    + intros [<-|(k & Hk & Ea & Hl)]; [exists 0%nat; cbn; split; [lia|split; lra]|]. exists (S k). rewrite S_INR. split; [lia|]. split; [lra|auto].
    + intros (k & Hk & Ea & Hl). destruct k as [|k]; [left; cbn in Ea; lra|]. right. exists k. rewrite S_INR in Ea. split; [lia|]. split; [lra|auto].
  - split; [intros []|]. intros (k & Hk & Ea & Hl). pose proof (pos_INR k). lra.
Qed.
Lemma contact_fold v p l : forall b, (fst b = None -> snd b = None) -> (forall d, fst b = Some d -> exists a, snd b = Some a /\ dist_to_walls v p a = Some d) ->
  match fold_left (contact_step v p) l b with
  | (Some d, Some a) => dist_to_walls v p a = Some d /\ (List.In a l \/ b = (Some d, Some a)) /\ (forall d', fst b = Some d' -> d <= d') /\
                        forall a' d', List.In a' l -> dist_to_walls v p a' = Some d' -> d <= d'
  | (None, None) => fst b = None /\ forall a', List.In a' l -> dist_to_walls v p a' = None
  | _ => False
  end.
Proof.
  induction l as [|x l IH]; intros b H1 H2; cbn [fold_left].
  { destruct b as [[d|] [a|]]; cbn in *.
    - destruct (H2 d eq_refl) as (a' & [= ->] & E). split; [auto|split; [auto|split; [intros d' [= ->]; lra|intros a'' d' []]]].
    - destruct (H2 d eq_refl) as (a' & E & _). discriminate.
    - discriminate (H1 eq_refl).
    - split; [auto|intros a' []]. }
  assert (G1 : fst (contact_step v p b x) = None -> snd (contact_step v p b x) = None).
  { unfold contact_step. destruct (dist_to_walls v p x); [|auto]. destruct (fst b) eqn:Eb; [|discriminate]. destruct (Rltb _ _); cbn [fst snd]; congruence. }
  assert (G2 : forall d, fst (contact_step v p b x) = Some d -> exists a, snd (contact_step v p b x) = Some a /\ dist_to_walls v p a = Some d).
  { unfold contact_step. destruct (dist_to_walls v p x) as [e|] eqn:Ex; [|auto]. destruct (fst b) as [m|] eqn:Eb; [destruct (Rltb e m)|]; cbn [fst snd]; intros d Q; try (exists x; split; [auto|congruence]). apply H2. congruence. }
  specialize (IH _ G1 G2). destruct (fold_left _ l _) as [[d|] [a|]]; auto.
  - destruct IH as (A & B & C & D). split; [auto|]. split; [|split].
    + destruct B as [B|B]; [left; right; auto|]. unfold contact_step in B. destruct (dist_to_walls v p x) as [e|] eqn:Ex; [|right; auto].
      destruct (fst b) as [m|]; [destruct (Rltb e m)|]; [injection B as _ ->; left; left; auto|right; auto|injection B as _ ->; left; left; auto].
    + intros d' Eb. unfold contact_step in C. rewrite Eb in C. destruct (dist_to_walls v p x) as [e|]; [|apply C; auto]. destruct (Rltb e d') eqn:Q; cbn [fst] in C; [apply Rltb_true in Q; specialize (C _ eq_refl); lra|apply C; auto].
    + intros a' d' [<-|Ha] Ed; [|eauto]. unfold contact_step in C. rewrite Ed in C. destruct (fst b) as [m|] eqn:Eb; [|apply C; auto]. destruct (Rltb d' m) eqn:Q; [apply C; auto|]. apply Rltb_false in Q. specialize (C _ Eb). lra.
  - destruct IH as (A & B). unfold contact_step in A. destruct (dist_to_walls v p x) as [e|] eqn:Ex; [destruct (fst b) as [m|] eqn:Eb; [destruct (Rltb e m)|]; cbn in A; congruence|]. split; [auto|]. intros a' [<-|Ha]; auto.
Qed.
(** C118: the contact is the smallest distance among the bearings 0, 0.1, 0.2, ... below 2 [M_PI]; when no wall is met in these directions the distance
    is infinite and the bearing is an indeterminate value. *)
Theorem C118_contact : forall M v p, M <= 5 -> match contact_to_walls M v p with
  | (Some d, Some a) => (exists k, a = INR k / 10) /\ 0 <= a < 2 * M /\ dist_to_walls v p a = Some d /\
                        forall k d', INR k / 10 < 2 * M -> dist_to_walls v p (INR k / 10) = Some d' -> d <= d'
  | (None, None) => forall k, INR k / 10 < 2 * M -> dist_to_walls v p (INR k / 10) = None
  | _ => False
  end.
Proof.
  intros M v p HM. unfold contact_to_walls.
  assert (Sp : forall a, List.In a (bearings M 100 0) -> exists k, a = 0 + INR k / 10 /\ a < 2 * M). { intros a Ha. apply bearings_spec in Ha. destruct Ha as (k & _ & Ea & Hl). eauto. }
  assert (K : forall k, INR k / 10 < 2 * M -> List.In (INR k / 10) (bearings M 100 0)).
  { intros k Hk. apply bearings_spec. exists k. split; [|split; [lra|auto]]. apply INR_lt. replace (INR 100) with 100 by (rewrite INR_IZR_INZ; f_equal). lra. }
  revert Sp K. generalize (bearings M 100 0) as L. intros L Sp K. match goal with |- context [fold_left _ L _] => idtac end.
  pose proof (contact_fold v p L (None, None)) as H. specialize (H (fun _ => eq_refl)).
  assert (H' := H (fun d (Q : fst (None : option R, None : option R) = Some d) => False_ind _ ltac:(discriminate Q))). clear H.
  destruct (fold_left _ _ _) as [[d|] [a|]]; auto.
  - destruct H' as (A & [B|B] & _ & D); [|discriminate]. apply Sp in B. destruct B as (k & Ea & Hl). split; [exists k; lra|]. split; [pose proof (pos_INR k); lra|]. split; [auto|]. intros k' d' Hk Ed. eapply D; eauto.
  - destruct H' as (_ & B). intros k Hk. apply B. auto.
Qed.

Lemma sin_tenth : 1 / 10 - 1 / 1000 <= sin (1 / 10).
Proof.
  pose proof PI2_1 as P1. assert (A := sin_lb_gt_0 (1 / 10)). destruct (sin_bound (1 / 10) 0) as (B & _); [lra|pose proof PI_RGT_0; lra|]. unfold sin_approx in B. cbn in B. unfold sin_term in B. cbn in B. lra.
Qed.
(** a small wall in front of the robot, between two of the bearings, is not detected at all *)
Theorem C118_contact_refuted : forall M, 0 < M <= PI -> exists w p a l, met w p a l /\ l <= 2 /\ ~ aligned w a /\ contact_to_walls M [w] p = (None, None).
Proof.
  intros M HM. pose proof PI_RGT_0 as PP. pose proof PI_4 as P4. set (w := mkW (1, 3 / 100) (1, 7 / 100)). set (a := atan (1 / 20)). exists w, (0, 0), a, (sqrt (1 + (1 / 20)²)).
  assert (S0 : 0 < sqrt (1 + (1 / 20)²)) by (apply sqrt_lt_R0; unfold Rsqr; lra).
  assert (Ca : cos a = 1 / sqrt (1 + (1 / 20)²)) by apply cos_atan. assert (Sa : sin a = 1 / 20 / sqrt (1 + (1 / 20)²)) by apply sin_atan.
  split; [|split; [|split]].
  - split; [lra|]. exists (1 / 2). cbn [w w_c1 w_c2 fst snd]. rewrite Ca, Sa. split; [lra|]. split; field; lra.
  - apply Rsqr_incr_0; try lra. rewrite Rsqr_sqrt; unfold Rsqr; lra.
  - unfold aligned. cbn [w w_c1 w_c2 fst snd]. rewrite Ca. intros Q. assert (1 / sqrt (1 + (1 / 20)²) > 0) by (apply Rdiv_lt_0_compat; lra). lra.
  - pose proof (C118_contact M [w] (0, 0)) as H. assert (HM5 : M <= 5) by lra. specialize (H HM5).
    assert (Nm : forall b, (b = 0 \/ 1 / 10 <= b) -> b < 2 * M -> forall l, ~ met w (0, 0) b l).
    { intros b Hb Hb2 l (L0 & s & Hs & E1 & E2). cbn [w w_c1 w_c2 fst snd] in E1, E2.
      assert (F1 : l * cos b = 1) by lra. assert (F2 : 3 / 100 <= l * sin b <= 7 / 100) by lra.
      destruct Hb as [->|Hb]; [rewrite sin_0 in F2; lra|].
      assert (L : 0 < l) by (destruct (Req_dec l 0); [subst; lra|lra]).
      assert (Sb : 0 < sin b) by (apply (Rmult_lt_reg_l l); lra). assert (Cb : 0 < cos b) by (apply (Rmult_lt_reg_l l); lra).
      assert (B1 : b < PI). { destruct (Rlt_dec b PI); auto. exfalso. assert (sin b <= 0) by (apply sin_le_0; lra). lra. }
      assert (B2 : b < PI / 2). { destruct (Rlt_dec b (PI / 2)); auto. exfalso. assert (cos b <= 0) by (apply cos_le_0; lra). lra. }
      assert (Mn : sin (1 / 10) <= sin b) by (apply sin_incr_1; lra). pose proof sin_tenth. pose proof (COS_bound b) as Cb1.
      assert (1 <= l) by nra. nra. }
    assert (Nd : forall k, INR k / 10 < 2 * M -> dist_to_walls [w] (0, 0) (INR k / 10) = None).
    { intros k Hk. pose proof (C118_dist [w] (0, 0) (INR k / 10)) as D. destruct (dist_to_walls _ _ _) as [d|]; auto. exfalso. destruct D as ((w' & [<-|[]] & _ & Md) & _).
      eapply Nm; [|exact Hk|exact Md]. destruct k as [|k]; [left; cbn; lra|right]. rewrite S_INR. pose proof (pos_INR k). lra. }
    destruct (contact_to_walls M [w] (0, 0)) as [[d|] [b|]]; auto; try contradiction. destruct H as ((k & ->) & Hb & Ed & _). rewrite Nd in Ed by lra. discriminate.
Qed.

(** ** Examples *)
(** two walls in front of the origin and one behind: the closest one is found *)
Definition ex_walls : list wall := [mkW (4, -1) (4, 1); mkW (2, -1) (2, 1); mkW (-1, -1) (-1, 1)].
Example C118_dist_ex : dist_to_walls ex_walls (0, 0) 0 = Some 2.
Proof.
  pose proof (C118_dist ex_walls (0, 0) 0) as H. unfold ex_walls in *.
  assert (N : ~ aligned (mkW (2, -1) (2, 1)) 0) by (unfold aligned; cbn; rewrite cos_0, sin_0; lra).
  assert (M : met (mkW (2, -1) (2, 1)) (0, 0) 0 2) by (split; [lra|exists (1 / 2); cbn; rewrite cos_0, sin_0; lra]).
  destruct (dist_to_walls _ _ _) as [d|].
  - destruct H as ((w & Hw & _ & L0 & s & Hs & E & _) & _ & Mn). specialize (Mn (mkW (2, -1) (2, 1)) 2 (or_intror (or_introl eq_refl)) N M). f_equal.
    repeat destruct Hw as [<-|Hw]; try contradiction; cbn in E; rewrite cos_0 in E; lra.
  - specialize (H (mkW (2, -1) (2, 1)) 2 (or_intror (or_introl eq_refl)) N M). lra.
Qed.
Example C118_contains_ex : let w := mkW (0, 0) (2, 2) in w_c1 w <> w_c2 w /\ on_line w (1, 1) /\ on_wall w (1, 1) /\ on_line w (3, 3) /\ ~ on_wall w (3, 3).
Proof.
  cbn zeta. split; [cbn; intros E; injection E; lra|]. split; [exists (1 / 2); cbn; lra|]. split; [exists (1 / 2); cbn; lra|]. split; [exists (3 / 2); cbn; lra|].
  intros (s & Hs & E & _). cbn in E. lra.
Qed.
Example C118_cross_ex : w_cross (mkW (0, 0) (2, 2)) (mkW (0, 2) (2, 0)) = Some (1, 1).
Proof. unfold w_cross. cbn [w_c1 w_c2 fst snd]. rewrite (proj2 (Reqb_false _ 0)) by lra. f_equal. f_equal; field. Qed.
(** a square room: a contact exists *)
Example C118_contact_ex : exists d a, contact_to_walls 3 ex_walls (0, 0) = (Some d, Some a) /\ d <= 2.
Proof.
  pose proof (C118_contact 3 ex_walls (0, 0)) as H. assert (L : 3 <= 5) by lra. specialize (H L). assert (Z : INR 0 / 10 = 0) by (cbn; lra).
  destruct (contact_to_walls 3 ex_walls (0, 0)) as [[d|] [a|]]; try contradiction.
  - exists d, a. split; auto. destruct H as (_ & _ & _ & H). apply (H 0%nat 2); rewrite Z; [lra|apply C118_dist_ex].
  - specialize (H 0%nat). rewrite Z, C118_dist_ex in H. assert (0 < 2 * 3) by lra. discriminate (H H0).
Qed.

Print Assumptions C118_contains_partial.
Print Assumptions C118_contains_refuted.
Print Assumptions C118_cross.
Print Assumptions C118_dist.
Print Assumptions C118_aligned_refuted.
Print Assumptions C118_contact.
Print Assumptions C118_contact_refuted.
