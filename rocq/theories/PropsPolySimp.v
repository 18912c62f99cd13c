(** * ConvexPolygon::simplify encloses the polygon *)

From Coq Require Import Reals Lra Psatz Bool List Arith Lia.
Import ListNotations.
From Verif Require Import Itv Arith Tube TubeOps Concrete Geometry PropsGeom PropsGeom2 PropsGeom3 PropsHull PolyArith PropsPolyArith PropsPolyInter PolySimp.
Open Scope R_scope.

(** ** Lists of vertices up to rotation *)
(** the same cyclic list, seen from another vertex *)
Definition turned (u v : list pt2) : Prop := exists l1 l2, u = l1 ++ l2 /\ v = l2 ++ l1.

Lemma turned_refl u : turned u u.
Proof. exists [], u. rewrite app_nil_r. split; reflexivity. Qed.
Lemma turned_sym u v : turned u v -> turned v u.
Proof. intros (l1 & l2 & A & B). exists l2, l1. auto. Qed.
Lemma turned_In u v x : turned u v -> List.In x u -> List.In x v.
Proof. intros (l1 & l2 & -> & ->) H. apply in_app_or in H. apply in_or_app. tauto. Qed.
Lemma turned_length u v : turned u v -> length u = length v.
Proof. intros (l1 & l2 & -> & ->). rewrite !app_length. lia. Qed.
Lemma turned_ccw u v : turned u v -> ccw u -> ccw v.
Proof.
  intros (l1 & l2 & -> & ->) [H3 H]. split; [rewrite app_length in *; lia|]. intros i j k Hi Hk. rewrite app_length in Hk.
  assert (N : forall x, (x < length l1 + length l2)%nat -> nth x (l2 ++ l1) (0, 0) = nth (if x <? length l2 then length l1 + x else x - length l2) (l1 ++ l2) (0, 0)).
  { intros x Hx. destruct (x <? length l2) eqn:E; [apply Nat.ltb_lt in E|apply Nat.ltb_ge in E].
    - rewrite app_nth1 by lia. rewrite app_nth2 by lia. f_equal. lia.
    - rewrite app_nth2 by lia. rewrite app_nth1 by lia. reflexivity. }
  rewrite !N by lia. rewrite app_length in H.
  destruct (i <? length l2) eqn:E1; destruct (j <? length l2) eqn:E2; destruct (k <? length l2) eqn:E3;
    repeat match goal with E : (_ <? _) = true |- _ => apply Nat.ltb_lt in E | E : (_ <? _) = false |- _ => apply Nat.ltb_ge in E end; try lia.
  - apply H; lia.
  - rewrite <- area_cyc. rewrite <- area_cyc. rewrite <- area_cyc. rewrite area_cyc, area_cyc. apply H; lia.
  - rewrite area_cyc. apply H; lia.
  - apply H; lia.
Qed.

Lemma put_at l1 x l2 w : put (length l1) w (l1 ++ x :: l2) = l1 ++ w :: l2.
Proof. unfold put. rewrite firstn_app, Nat.sub_diag, firstn_all, firstn_O, app_nil_r. f_equal. f_equal. change (S (length l1)) with (1 + length l1)%nat. rewrite Nat.add_comm, skipn_app, skipn_all2 by lia. replace (length l1 + 1 - length l1)%nat with 1%nat by lia. reflexivity. Qed.
Lemma erase_at l1 x l2 : erase (length l1) (l1 ++ x :: l2) = l1 ++ l2.
Proof. unfold erase. rewrite firstn_app, Nat.sub_diag, firstn_all, firstn_O, app_nil_r. f_equal. change (S (length l1)) with (1 + length l1)%nat. rewrite Nat.add_comm, skipn_app, skipn_all2 by lia. replace (length l1 + 1 - length l1)%nat with 1%nat by lia. reflexivity. Qed.
Lemma nth_at (l1 : list pt2) x l2 d : nth (length l1) (l1 ++ x :: l2) d = x.
Proof. rewrite app_nth2, Nat.sub_diag by lia. reflexivity. Qed.

(** the removal of the edge [a b] *)
Lemma cut_shape (v : polygon) i : (4 <= length v)%nat -> (i < length v)%nat -> exists p a b s r,
  vertex v (i + length v - 1) = p /\ nth i v (0, 0) = a /\ vertex v (i + 1) = b /\ vertex v (i + 2) = s /\
  turned v (p :: a :: b :: s :: r) /\ forall w, turned (erase ((i + 1) mod length v) (put i w v)) (p :: w :: s :: r).
Proof.
  intros L Hi. unfold vertex. destruct i as [|i].
  - destruct v as [|a [|b [|s r]]]; cbn [length] in L; try lia. destruct (@exists_last _ r) as (l & p & ->); [intros ->; cbn in L; lia|].
    cbn [length] in *. rewrite app_length in *. cbn [length] in *. exists p, a, b, s, l.
    rewrite (Nat.mod_small (0 + S (S (S (length l + 1))) - 1)) by lia.
    replace (0 + S (S (S (length l + 1))) - 1)%nat with (S (S (S (length l)))) by lia.
    rewrite (Nat.mod_small (0 + 1)), (Nat.mod_small (0 + 2)) by lia. cbn [nth Nat.add].
    refine (conj (nth_at l p [] _) (conj eq_refl (conj eq_refl (conj eq_refl (conj _ _))))).
    + exists ([a; b; s] ++ l), [p]. split; reflexivity.
    + intros w. exists ([w; s] ++ l), [p]. split; reflexivity.
  - assert (E : v = firstn i v ++ skipn i v) by (symmetry; apply firstn_skipn).
    assert (Li : length (firstn i v) = i) by (apply firstn_length_le; lia). revert E Li. generalize (firstn i v) (skipn i v). intros l1 [|p [|a r]] E Li.
    + rewrite E, app_length in Hi. cbn in Hi. lia.
    + rewrite E, app_length in Hi. cbn in Hi. lia.
    + subst i. destruct r as [|b [|s r]].
      * destruct l1 as [|b [|s l]]; [subst v; cbn in L; lia|subst v; cbn in L; lia|]. subst v. exists p, a, b, s, l.
        set (l1 := b :: s :: l). assert (N : length (l1 ++ [p; a]) = S (S (length l1))) by (rewrite app_length; cbn; lia). rewrite N.
        replace (S (length l1) + S (S (length l1)) - 1)%nat with (length l1 + 1 * S (S (length l1)))%nat by lia.
        replace (S (length l1) + 1)%nat with (0 + 1 * S (S (length l1)))%nat by lia.
        replace (S (length l1) + 2)%nat with (1 + 1 * S (S (length l1)))%nat by lia.
        rewrite !Nat.mod_add, !Nat.mod_small by lia. refine (conj (nth_at l1 p [a] _) (conj _ (conj eq_refl (conj eq_refl (conj _ _))))).
        -- replace (S (length l1)) with (length (l1 ++ [p])) by (rewrite app_length; cbn; lia). change [p; a] with ([p] ++ [a]). rewrite app_assoc. apply nth_at.
        -- exists l1, [p; a]. split; reflexivity.
        -- intros w. replace (S (length l1)) with (length (l1 ++ [p])) by (rewrite app_length; cbn; lia). change [p; a] with ([p] ++ [a]). rewrite app_assoc, put_at.
           exists ((s :: l)), [p; w]. split; [|reflexivity]. unfold l1, erase. cbn. rewrite <- app_assoc. reflexivity.
      * destruct l1 as [|s l]; [subst v; cbn in L; lia|]. subst v. exists p, a, b, s, l.
        set (l1 := s :: l). assert (N : length (l1 ++ [p; a; b]) = S (S (S (length l1)))) by (rewrite app_length; cbn; lia). rewrite N.
        replace (S (length l1) + S (S (S (length l1))) - 1)%nat with (length l1 + 1 * S (S (S (length l1))))%nat by lia.
        replace (S (length l1) + 2)%nat with (0 + 1 * S (S (S (length l1))))%nat by lia.
        rewrite !Nat.mod_add, !Nat.mod_small by lia. replace (S (length l1)) with (length (l1 ++ [p])) by (rewrite app_length; cbn; lia).
        replace (length (l1 ++ [p]) + 1)%nat with (length (l1 ++ [p; a])) by (rewrite !app_length; cbn; lia).
        refine (conj (nth_at l1 p [a; b] _) (conj _ (conj _ (conj eq_refl (conj _ _))))).
        -- change [p; a; b] with ([p] ++ [a; b]). rewrite app_assoc. apply nth_at.
        -- change [p; a; b] with ([p; a] ++ [b]). rewrite app_assoc. apply nth_at.
        -- exists l1, [p; a; b]. split; reflexivity.
        -- intros w. change [p; a; b] with ([p] ++ [a; b]). rewrite app_assoc, put_at.
           replace (length (l1 ++ [p; a])) with (length ((l1 ++ [p]) ++ [w])) by (rewrite !app_length; cbn; lia).
           change (w :: [b]) with ([w] ++ [b]). rewrite (app_assoc (l1 ++ [p])), erase_at. exists l1, [p; w]. split; [|reflexivity]. rewrite app_nil_r, <- !app_assoc. reflexivity.
      * subst v. exists p, a, b, s, (r ++ l1).
        assert (N : length (l1 ++ p :: a :: b :: s :: r) = (length l1 + 4 + length r)%nat) by (rewrite app_length; cbn; lia). rewrite N.
        replace (S (length l1) + (length l1 + 4 + length r) - 1)%nat with (length l1 + 1 * (length l1 + 4 + length r))%nat by lia.
        rewrite !Nat.mod_add, !Nat.mod_small by lia.
        replace (S (length l1)) with (length (l1 ++ [p])) by (rewrite app_length; cbn; lia).
        replace (length (l1 ++ [p]) + 1)%nat with (length (l1 ++ [p; a])) by (rewrite !app_length; cbn; lia).
        replace (length (l1 ++ [p]) + 2)%nat with (length (l1 ++ [p; a; b])) by (rewrite !app_length; cbn; lia).
        refine (conj (nth_at l1 p _ _) (conj _ (conj _ (conj _ (conj _ _))))).
        -- change (p :: a :: b :: s :: r) with ([p] ++ a :: b :: s :: r). rewrite app_assoc. apply nth_at.
        -- change (p :: a :: b :: s :: r) with ([p; a] ++ b :: s :: r). rewrite app_assoc. apply nth_at.
        -- change (p :: a :: b :: s :: r) with ([p; a; b] ++ s :: r). rewrite app_assoc. apply nth_at.
        -- exists l1, (p :: a :: b :: s :: r). split; reflexivity.
        -- intros w. change (p :: a :: b :: s :: r) with ([p] ++ a :: b :: s :: r). rewrite app_assoc, put_at.
           replace (length (l1 ++ [p; a])) with (length ((l1 ++ [p]) ++ [w])) by (rewrite !app_length; cbn; lia).
           change (w :: b :: s :: r) with ([w] ++ b :: s :: r). rewrite (app_assoc (l1 ++ [p])), erase_at. exists l1, (p :: w :: s :: r). split; [|reflexivity]. rewrite <- !app_assoc. reflexivity.
Qed.

(** ** Removing an edge of a strictly convex polygon *)
Lemma pos_factor d u : 0 < d -> 0 < d * u -> 0 < u.
Proof. intros D H. apply (Rmult_lt_reg_l d); lra. Qed.
(** in the cone of summit the origin, [a = (0, theta)] and [b = (rho, 0)] *)
Lemma cone theta rho x1 x2 y1 y2 : 0 <= theta -> 0 <= rho -> 0 < x1 -> 0 < x2 -> 0 < rho * x2 + theta * x1 - rho * theta ->
  0 < x1 * y2 - x2 * y1 + theta * (y1 - x1) -> 0 < x1 * y2 - x2 * y1 + rho * (x2 - y2) -> 0 < x1 * y2 - x2 * y1.
Proof.
  intros T0 R0 X1 X2 F A B. destruct (Rlt_dec 0 (x1 * y2 - x2 * y1)) as [|N]; [assumption|exfalso].
  set (X := y1 - x1) in *. set (Y := x2 - y2) in *. assert (E : x1 * y2 - x2 * y1 = - (x1 * Y) - x2 * X) by (unfold X, Y; ring). rewrite E in *. clear E.
  assert (PX : 0 < X). { destruct (Rlt_dec 0 X); [assumption|exfalso]. assert (theta * X <= 0) by nra. lra. }
  assert (PY : 0 < Y). { destruct (Rlt_dec 0 Y); [assumption|exfalso]. assert (rho * Y <= 0) by nra. lra. }
  assert (a : x1 * Y < (theta - x2) * X) by lra. assert (b : x2 * X < (rho - x1) * Y) by lra.
  assert (0 < x1 * Y) by (apply Rmult_lt_0_compat; assumption). assert (0 < x2 * X) by (apply Rmult_lt_0_compat; assumption).
  assert (M : (x1 * Y) * (x2 * X) < ((theta - x2) * X) * ((rho - x1) * Y)).
  { apply Rmult_gt_0_lt_compat; lra. }
  assert (M2 : (X * Y) * (x1 * x2) < (X * Y) * ((theta - x2) * (rho - x1))) by (replace ((X * Y) * (x1 * x2)) with ((x1 * Y) * (x2 * X)) by ring; replace ((X * Y) * ((theta - x2) * (rho - x1))) with (((theta - x2) * X) * ((rho - x1) * Y)) by ring; exact M).
  apply Rmult_lt_reg_l in M2; [lra|]. apply Rmult_lt_0_compat; assumption.
Qed.
Lemma core (p a b s w x y : pt2) si ta : 1 <= si -> 1 <= ta ->
  fst w = fst p + si * (fst a - fst p) -> snd w = snd p + si * (snd a - snd p) ->
  fst w = fst s + ta * (fst b - fst s) -> snd w = snd s + ta * (snd b - snd s) ->
  0 < area p a s -> 0 < area a b x -> 0 < area p a x -> 0 < area b s x -> 0 < area a x y -> 0 < area b x y -> 0 < area w x y.
Proof.
  intros Hs Ht W1 W2 W3 W4 C Hx Hpx Hsx Hay Hby.
  set (Px := fst p - fst w). set (Py := snd p - snd w). set (Sx := fst s - fst w). set (Sy := snd s - snd w).
  set (theta := (si - 1) / si). set (rho := (ta - 1) / ta).
  assert (T0 : 0 <= theta) by (apply Rmult_le_pos; [lra|left; apply Rinv_0_lt_compat; lra]). assert (R0 : 0 <= rho) by (apply Rmult_le_pos; [lra|left; apply Rinv_0_lt_compat; lra]).
  assert (T1 : 0 < 1 - theta). { unfold theta. replace (1 - (si - 1) / si) with (/ si) by (field; lra). apply Rinv_0_lt_compat. lra. }
  assert (R1 : 0 < 1 - rho). { unfold rho. replace (1 - (ta - 1) / ta) with (/ ta) by (field; lra). apply Rinv_0_lt_compat. lra. }
  assert (Ea : fst a = fst w + theta * Px /\ snd a = snd w + theta * Py) by (unfold theta, Px, Py; rewrite W1, W2; split; field; lra).
  assert (Eb : fst b = fst w + rho * Sx /\ snd b = snd w + rho * Sy) by (unfold rho, Sx, Sy; rewrite W3, W4; split; field; lra).
  assert (Ep : fst p = fst w + Px /\ snd p = snd w + Py) by (unfold Px, Py; split; ring).
  assert (Es : fst s = fst w + Sx /\ snd s = snd w + Sy) by (unfold Sx, Sy; split; ring).
  clearbody Px Py Sx Sy theta rho. clear W1 W2 W3 W4. destruct Ea as [Ea1 Ea2], Eb as [Eb1 Eb2], Ep as [Ep1 Ep2], Es as [Es1 Es2].
  set (D := Sx * Py - Sy * Px).
  assert (PD : 0 < D). { apply (pos_factor (1 - theta)); [exact T1|]. replace ((1 - theta) * D) with (area p a s); [exact C|]. unfold area, D. rewrite Ea1, Ea2, Ep1, Ep2, Es1, Es2. ring. }
  assert (CO : forall z : pt2, exists z1 z2, fst z = fst w + z1 * Sx + z2 * Px /\ snd z = snd w + z1 * Sy + z2 * Py).
  { intros z. exists (((fst z - fst w) * Py - (snd z - snd w) * Px) / D), ((Sx * (snd z - snd w) - Sy * (fst z - fst w)) / D). unfold D in *. split; field; lra. }
  destruct (CO x) as (x1 & x2 & Ex1 & Ex2). destruct (CO y) as (y1 & y2 & Ey1 & Ey2).
  replace (area w x y) with (D * (x1 * y2 - x2 * y1)) by (unfold area, D; rewrite Ex1, Ex2, Ey1, Ey2; ring).
  apply Rmult_lt_0_compat; [exact PD|]. apply (cone theta rho); try assumption.
  - apply (pos_factor (D * (1 - theta))); [apply Rmult_lt_0_compat; assumption|]. replace (D * (1 - theta) * x1) with (area p a x); [exact Hpx|].
    unfold area, D. rewrite Ea1, Ea2, Ep1, Ep2, Ex1, Ex2. ring.
  - apply (pos_factor (D * (1 - rho))); [apply Rmult_lt_0_compat; assumption|]. replace (D * (1 - rho) * x2) with (area b s x); [exact Hsx|].
    unfold area, D. rewrite Eb1, Eb2, Es1, Es2, Ex1, Ex2. ring.
  - apply (pos_factor D _ PD). replace (D * _) with (area a b x); [exact Hx|]. unfold area, D. rewrite Ea1, Ea2, Eb1, Eb2, Ex1, Ex2. ring.
  - apply (pos_factor D _ PD). replace (D * _) with (area a x y); [exact Hay|]. unfold area, D. rewrite Ea1, Ea2, Ex1, Ex2, Ey1, Ey2. ring.
  - apply (pos_factor D _ PD). replace (D * _) with (area b x y); [exact Hby|]. unfold area, D. rewrite Eb1, Eb2, Ex1, Ex2, Ey1, Ey2. ring.
Qed.
Lemma cut_edge p a b s r w : ccw (p :: a :: b :: s :: r) -> area p a w = 0 -> area b s w = 0 -> 0 <= area a w b ->
  ccw (p :: w :: s :: r) /\ on_seg p w a /\ on_seg s w b.
Proof.
  intros [_ C] Z1 Z2 O. set (v := p :: a :: b :: s :: r) in *.
  assert (Lr : length v = (4 + length r)%nat) by reflexivity.
  assert (Pab : 0 < area p a b) by (apply (C 0 1 2)%nat; lia). assert (Abs : 0 < area a b s) by (apply (C 1 2 3)%nat; lia).
  assert (Pas : 0 < area p a s) by (apply (C 0 1 3)%nat; lia). assert (Pbs : 0 < area p b s) by (apply (C 0 2 3)%nat; lia).
  destruct (on_line p a w (area_ne _ _ _ Pab) Z1) as (si & W1 & W2).
  assert (N : s <> b) by (intros ->; unfold area in Abs; lra). assert (Z2' : area s b w = 0) by (unfold area in *; lra).
  destruct (on_line s b w N Z2') as (ta & W3 & W4).
  assert (Hs : 1 <= si). { assert (E : area a w b = (si - 1) * area p a b) by (unfold area; rewrite W1, W2; ring). destruct (Rle_dec 1 si); [assumption|]. assert ((si - 1) * area p a b < 0) by nra. lra. }
  assert (Ht : 1 <= ta). { assert (E : area a w b = (ta - 1) * area a b s) by (unfold area; rewrite W3, W4; ring). destruct (Rle_dec 1 ta); [assumption|]. assert ((ta - 1) * area a b s < 0) by nra. lra. }
  assert (SH : forall m, (2 <= m)%nat -> nth m (p :: w :: s :: r) (0, 0) = nth (S m) v (0, 0)) by (intros [|[|m]] Hm; [lia|lia|reflexivity]).
  refine (conj _ (conj _ _)).
  - split; [cbn; lia|]. intros i j k Hij Hk. cbn [length] in Hk. rewrite (SH k) by lia.
    destruct i as [|[|i]]; destruct j as [|[|j]]; try lia.
    + (* p w x *) change (0 < area p w (nth (S k) v (0, 0))). assert (E : area p w (nth (S k) v (0, 0)) = si * area p a (nth (S k) v (0, 0))) by (unfold area; rewrite W1, W2; ring).
      rewrite E. apply Rmult_lt_0_compat; [lra|]. apply (C 0 1 (S k))%nat; lia.
    + rewrite (SH (S (S j))) by lia. apply (C 0 (S (S (S j))) (S k))%nat; lia.
    + rewrite (SH (S (S j))) by lia. change (0 < area w (nth (S (S (S j))) v (0, 0)) (nth (S k) v (0, 0))). destruct j as [|j].
      * change (0 < area w s (nth (S k) v (0, 0))). assert (E : area w s (nth (S k) v (0, 0)) = ta * area b s (nth (S k) v (0, 0))) by (unfold area; rewrite W3, W4; ring).
        rewrite E. apply Rmult_lt_0_compat; [lra|]. apply (C 2 3 (S k))%nat; lia.
      * set (J := S (S (S (S j)))) in *. apply (core p a b s w _ _ si ta); try assumption.
        -- apply (C 1 2 J)%nat; lia.
        -- apply (C 0 1 J)%nat; lia.
        -- apply (C 2 3 J)%nat; lia.
        -- apply (C 1 J (S k))%nat; lia.
        -- apply (C 2 J (S k))%nat; lia.
    + rewrite (SH (S (S i))), (SH (S (S j))) by lia. apply C; lia.
  - exists (/ si). rewrite W1, W2. split; [split; [left; apply Rinv_0_lt_compat; lra|rewrite <- Rinv_1; apply Rinv_le_contravar; lra]|]. split; field; lra.
  - exists (/ ta). rewrite W3, W4. split; [split; [left; apply Rinv_0_lt_compat; lra|rewrite <- Rinv_1; apply Rinv_le_contravar; lra]|]. split; field; lra.
Qed.
(** the enclosure *)
Lemma cut_conv p a b s r w z : on_seg p w a -> on_seg s w b -> conv (p :: a :: b :: s :: r) z -> conv (p :: w :: s :: r) z.
Proof.
  intros Sa Sb. apply conv_incl. intros v [<-|[<-|[<-|[<-|H]]]].
  - apply conv_vertex. left. reflexivity.
  - apply (conv_seg _ p w); auto; apply conv_vertex; cbn; tauto.
  - apply (conv_seg _ s w); auto; apply conv_vertex; cbn; tauto.
  - apply conv_vertex. cbn. tauto.
  - apply conv_vertex. cbn. tauto.
Qed.
Lemma turned_conv u v z : turned u v -> conv u z -> conv v z.
Proof. intros T. apply conv_incl. intros x Hx. apply conv_vertex. exact (turned_In u v x T Hx). Qed.
Lemma cut_sound v i w : ccw v -> (4 <= length v)%nat -> (i < length v)%nat ->
  area (vertex v (i + length v - 1)) (nth i v (0, 0)) w = 0 -> area (vertex v (i + 1)) (vertex v (i + 2)) w = 0 ->
  0 <= area (nth i v (0, 0)) w (vertex v (i + 1)) ->
  let v' := erase ((i + 1) mod length v) (put i w v) in
  ccw v' /\ (forall z, conv v z -> conv v' z) /\ (forall x, List.In x v' -> x = w \/ List.In x v) /\ length v = S (length v').
Proof.
  intros C L Hi Z1 Z2 O v'. destruct (cut_shape v i L Hi) as (p & a & b & s & r & E1 & E2 & E3 & E4 & T & T').
  rewrite E1, E2 in Z1. rewrite E3, E4 in Z2. rewrite E2, E3 in O. specialize (T' w). fold v' in T'.
  destruct (cut_edge p a b s r w (turned_ccw _ _ T C) Z1 Z2 O) as (C' & Sa & Sb). refine (conj _ (conj _ (conj _ _))).
  - apply (turned_ccw _ _ (turned_sym _ _ T') C').
  - intros z Hz. apply (turned_conv _ _ z (turned_sym _ _ T')). apply (cut_conv p a b s r w z Sa Sb). apply (turned_conv _ _ z T Hz).
  - intros x Hx. apply (turned_In _ _ x T') in Hx. destruct Hx as [<-|[<-|Hx]]; [right|left; reflexivity|right]; apply (turned_In _ _ _ (turned_sym _ _ T)); [left; reflexivity|right; right; right; exact Hx].
  - rewrite (turned_length _ _ T), (turned_length _ _ T'). reflexivity.
Qed.

(** ** The search of an edge *)
(** an edge that may be removed: [w] is the meeting point of the neighbours *)
Definition removable (v : polygon) (lim : tpoint) (i : nat) (w : pt2) : Prop :=
  (i < length v)%nat /\ area (vertex v (i + length v - 1)) (nth i v (0, 0)) w = 0 /\ area (vertex v (i + 1)) (vertex v (i + 2)) w = 0 /\
  0 <= area (nth i v (0, 0)) w (vertex v (i + 1)) /\ ptin w lim.
Lemma iabs_pt a : iabs (pt a) = pt (Rabs a).
Proof. unfold iabs, pt. cbn. f_equal; f_equal; unfold Rmax, Rabs; repeat destruct (Rle_dec _ _); destruct (Rcase_abs a); lra. Qed.
Lemma surface_pts p q r : surface gexact (tvec p) (tvec q) (tvec r) = pt (/ 2 * Rabs (area p q r)).
Proof.
  unfold surface. rewrite !tvec_some. cbn [fst snd gexact g_ar iadd isub imul exact]. rewrite !xmul_pt, !xadd_pt, !xsub_pt, iabs_pt, xmul_pt. f_equal. f_equal. f_equal. unfold area. ring.
Qed.
Lemma vertex_lt (v : polygon) i : v <> [] -> (i mod length v < length v)%nat.
Proof. intros N. apply Nat.mod_upper_bound. destruct v; [contradiction|cbn; lia]. Qed.
(** neighbours in a strictly convex polygon are distinct *)
Lemma ccw_neq (v : polygon) i j : ccw v -> (i < length v)%nat -> (j < length v)%nat -> i <> j -> nth i v (0, 0) <> nth j v (0, 0).
Proof.
  intros [L C]. assert (H : forall i j, (i < j < length v)%nat -> nth i v (0, 0) <> nth j v (0, 0)).
  { intros i' j' Hij E. destruct (le_lt_dec (length v) (S j')) as [K|K].
    - assert (exists k, (k < j' /\ k <> i')%nat) as (k & Hk & N). { destruct (Nat.eq_dec i' 0); [exists 1%nat; lia|exists 0%nat; lia]. }
      destruct (lt_dec k i') as [Q|Q].
      + specialize (C k i' j' ltac:(lia) ltac:(lia)). rewrite E in C. unfold area in C. lra.
      + specialize (C i' k j' ltac:(lia) ltac:(lia)). rewrite E in C. unfold area in C. lra.
    - specialize (C i' j' (S j') ltac:(lia) ltac:(lia)). rewrite E in C. unfold area in C. lra. }
  intros Hi Hj N. destruct (lt_dec i j); [apply H; lia|]. apply not_eq_sym, H. lia.
Qed.
Lemma vertex_neq (v : polygon) i j : ccw v -> (i mod length v <> j mod length v)%nat -> vertex v i <> vertex v j.
Proof. intros C N. pose proof (proj1 C). apply ccw_neq; [exact C| | |exact N]; apply vertex_lt; intros ->; cbn in *; lia. Qed.
Lemma vertex_small (v : polygon) i : (i < length v)%nat -> vertex v i = nth i v (0, 0).
Proof. intros H. unfold vertex. rewrite Nat.mod_small by exact H. reflexivity. Qed.
Lemma mod_next n i : (2 <= n)%nat -> ((i + 1) mod n <> i mod n)%nat.
Proof.
  intros N E. rewrite Nat.add_mod, (Nat.mod_small 1) in E by lia. pose proof (Nat.mod_upper_bound i n ltac:(lia)).
  destruct (Nat.eq_dec (i mod n + 1) n) as [Q|Q]; [rewrite Q, Nat.mod_same in E by lia; lia|]. rewrite Nat.mod_small in E by lia. lia.
Qed.
(** what a candidate does, on points: nothing, a new best edge, or the box *)
Lemma step_pts mid v lim b i w : (forall a, mid (pt a) = a) -> ccw v -> (i < length v)%nat ->
  det (vertex v (i + length v - 1)) (nth i v (0, 0)) (vertex v (i + 1)) (vertex v (i + 2)) <> 0 ->
  area (vertex v (i + length v - 1)) (nth i v (0, 0)) w = 0 -> area (vertex v (i + 1)) (vertex v (i + 2)) w = 0 ->
  scan_step gexact mid v lim (Some b) i =
    if contains (fst lim) (fst w) && contains (snd lim) (snd w) then
      if Rltb (area (nth i v (0, 0)) w (vertex v (i + 1))) 0 then Some b
      else if Nat.eqb (b_i b) 0 || surf_lt (Some (/ 2 * Rabs (area (nth i v (0, 0)) w (vertex v (i + 1))))) (b_surf b)
           then Some (mkBest (tvec w) (Some (/ 2 * Rabs (area (nth i v (0, 0)) w (vertex v (i + 1))))) i) else Some b
    else Some b.
Proof.
  intros M C Hi D Z1 Z2. pose proof (proj1 C) as L3.
  assert (N1 : vertex v (i + length v - 1) <> nth i v (0, 0)).
  { rewrite <- (vertex_small v i Hi). apply vertex_neq; [exact C|]. pose proof (mod_next (length v) (i + length v - 1) ltac:(lia)) as X.
    replace (i + length v - 1 + 1)%nat with (i + 1 * length v)%nat in X by lia. rewrite Nat.mod_add in X by lia. congruence. }
  assert (N2 : vertex v (i + 1) <> vertex v (i + 2)).
  { apply vertex_neq; [exact C|]. pose proof (mod_next (length v) (i + 1) ltac:(lia)) as X. replace (i + 1 + 1)%nat with (i + 2)%nat in X by lia. congruence. }
  unfold scan_step. rewrite !tedge_pts.
  destruct (proj_det _ _ _ _ N1 N2 D) as (c & E & A1 & A2).
  assert (c = w) as ->.
  { clear - D A1 A2 Z1 Z2. unfold area, det in *. destruct c as [cx cy], w as [wx wy]. cbn [fst snd] in *.
    set (p := vertex v (i + length v - 1)) in *. set (a := nth i v (0, 0)) in *. set (b := vertex v (i + 1)) in *. set (s := vertex v (i + 2)) in *. clearbody p a b s.
    set (d := (fst a - fst p) * (snd s - snd b) - (snd a - snd p) * (fst s - fst b)) in *.
    assert (U1 : (fst a - fst p) * (cy - wy) - (snd a - snd p) * (cx - wx) = 0) by lra.
    assert (U2 : (fst s - fst b) * (cy - wy) - (snd s - snd b) * (cx - wx) = 0) by lra.
    assert (d * (cx - wx) = 0).
    { replace (d * (cx - wx)) with ((fst s - fst b) * ((fst a - fst p) * (cy - wy) - (snd a - snd p) * (cx - wx)) - (fst a - fst p) * ((fst s - fst b) * (cy - wy) - (snd s - snd b) * (cx - wx))) by (unfold d; ring).
      rewrite U1, U2. ring. }
    assert (d * (cy - wy) = 0).
    { replace (d * (cy - wy)) with ((snd s - snd b) * ((fst a - fst p) * (cy - wy) - (snd a - snd p) * (cx - wx)) - (snd a - snd p) * ((fst s - fst b) * (cy - wy) - (snd s - snd b) * (cx - wx))) by (unfold d; ring).
      rewrite U1, U2. ring. }
    apply pair_eq; [destruct (Rmult_integral d (cx - wx)); [assumption|contradiction|lra]|destruct (Rmult_integral d (cy - wy)); [assumption|contradiction|lra]]. }
  assert (PA : parallel gexact (tvec (vertex v (i + length v - 1)), tvec (nth i v (0, 0))) (tvec (vertex v (i + 1)), tvec (vertex v (i + 2))) = NO).
  { unfold parallel. rewrite !vertical_pts, !horizontal_pts, E. clear - D. unfold det in D.
    destruct (Reqb (fst (vertex v (i + length v - 1))) (fst (nth i v (0, 0)))) eqn:E1; destruct (Reqb (fst (vertex v (i + 1))) (fst (vertex v (i + 2)))) eqn:E2.
    { exfalso. apply Reqb_true in E1, E2. apply D. rewrite E1, E2. ring. }
    all: destruct (Reqb (snd (vertex v (i + length v - 1))) (snd (nth i v (0, 0)))) eqn:E3; destruct (Reqb (snd (vertex v (i + 1))) (snd (vertex v (i + 2)))) eqn:E4; try reflexivity.
    all: exfalso; apply Reqb_true in E3, E4; apply D; rewrite E3, E4; ring. }
  rewrite PA, E. cbn [is_no]. change (t_empty (tvec w)) with false. rewrite orientation_pts, surface_pts, tvec_some. cbn [fst snd oub pt]. rewrite !M.
  destruct (contains (fst lim) (fst w) && contains (snd lim) (snd w)); cbn [negb]; [|reflexivity].
  set (ar := area (nth i v (0, 0)) w (vertex v (i + 1))). destruct (Reqb ar 0) eqn:Q.
  - apply Reqb_true in Q. rewrite (proj2 (Rltb_false ar 0)) by lra. reflexivity.
  - apply Reqb_false in Q. destruct (Rltb 0 ar) eqn:Q2.
    + apply Rltb_true in Q2. rewrite (proj2 (Rltb_false ar 0)) by lra. reflexivity.
    + apply Rltb_false in Q2. rewrite (proj2 (Rltb_true ar 0)) by lra. reflexivity.
Qed.
Lemma proj_par p1 p2 q1 q2 : p1 <> p2 -> q1 <> q2 -> det p1 p2 q1 q2 = 0 ->
  parallel gexact (tvec p1, tvec p2) (tvec q1, tvec q2) = YES \/ proj_intersection gexact (tvec p1, tvec p2) (tvec q1, tvec q2) = t_none.
Proof.
  intros Np Nq D. destruct (Req_dec (fst q1) (fst q2)) as [V|V].
  - left. assert (fst p1 = fst p2).
    { destruct (ne_cases q1 q2 Nq) as [H|H]; [contradiction|]. unfold det in D. rewrite V in D.
      destruct (Rmult_integral (fst p2 - fst p1) (snd q2 - snd q1)); lra. }
    unfold parallel. rewrite !vertical_pts, H, V, !Reqb_refl. reflexivity.
  - destruct (Req_dec (snd q1) (snd q2)) as [Hq|Hq].
    + left. assert (snd p1 = snd p2).
      { unfold det in D. rewrite Hq in D. destruct (Rmult_integral (snd p2 - snd p1) (fst q2 - fst q1)); lra. }
      unfold parallel. rewrite !vertical_pts, !horizontal_pts, H, Hq, !Reqb_refl. destruct (_ && _); reflexivity.
    + right. rewrite <- !tedge_pts. exact (parallel_proj p1 p2 q1 q2 (v_eqb_f _ _ Np) V Hq D).
Qed.
Lemma neighbours v i : ccw v -> (i < length v)%nat -> vertex v (i + length v - 1) <> nth i v (0, 0) /\ vertex v (i + 1) <> vertex v (i + 2).
Proof.
  intros C Hi. pose proof (proj1 C) as L3. split.
  - rewrite <- (vertex_small v i Hi). apply vertex_neq; [exact C|]. pose proof (mod_next (length v) (i + length v - 1) ltac:(lia)) as X.
    replace (i + length v - 1 + 1)%nat with (i + 1 * length v)%nat in X by lia. rewrite Nat.mod_add in X by lia. congruence.
  - apply vertex_neq; [exact C|]. pose proof (mod_next (length v) (i + 1) ltac:(lia)) as X. replace (i + 1 + 1)%nat with (i + 2)%nat in X by lia. congruence.
Qed.
Lemma step_par mid v lim b i : ccw v -> (i < length v)%nat ->
  det (vertex v (i + length v - 1)) (nth i v (0, 0)) (vertex v (i + 1)) (vertex v (i + 2)) = 0 ->
  scan_step gexact mid v lim (Some b) i = Some b \/ scan_step gexact mid v lim (Some b) i = None.
Proof.
  intros C Hi D. destruct (neighbours v i C Hi) as [N1 N2]. unfold scan_step. rewrite !tedge_pts.
  destruct (proj_par _ _ _ _ N1 N2 D) as [E|E]; rewrite E; cbn [is_no]; [left; reflexivity|]. destruct (is_no _); [right|left]; reflexivity.
Qed.
Lemma removable_det v lim i w : ccw v -> (4 <= length v)%nat -> removable v lim i w ->
  det (vertex v (i + length v - 1)) (nth i v (0, 0)) (vertex v (i + 1)) (vertex v (i + 2)) <> 0.
Proof.
  intros C L (Hi & Z1 & Z2 & _ & _) D. destruct (neighbours v i C Hi) as [N1 N2].
  destruct (cut_shape v i L Hi) as (p & a & b & s & r & E1 & E2 & E3 & E4 & T & _). rewrite E1, E2, E3, E4 in *.
  apply (turned_ccw _ _ T) in C. destruct C as [_ C]. assert (P : 0 < area p a s) by (apply (C 0 1 3)%nat; cbn; lia).
  assert (Z2' : area s b w = 0) by (unfold area in *; lra). destruct (on_line s b w (not_eq_sym N2) Z2') as (k & K1 & K2).
  assert (area p a s = area p a w + k * det p a b s) by (unfold area, det; rewrite K1, K2; ring). rewrite Z1, D in H. lra.
Qed.
(** the surface that is added by the removal *)
Definition added (v : polygon) (i : nat) (w : pt2) : R := / 2 * Rabs (area (nth i v (0, 0)) w (vertex v (i + 1))).
(** state of the search after the candidates of [l] *)
Definition search_inv (v : polygon) (lim : tpoint) (n : nat) (b : best) : Prop :=
  (t_empty (b_inter b) = true /\ b_i b = 0%nat /\ forall j w, (j < n)%nat -> ~ removable v lim j w) \/
  exists w, b_inter b = tvec w /\ b_surf b = Some (added v (b_i b) w) /\ (b_i b < n)%nat /\ removable v lim (b_i b) w /\
    (b_i b = 0%nat -> forall j u, (1 <= j < n)%nat -> ~ removable v lim j u) /\
    forall j u, (1 <= j < n)%nat -> removable v lim j u -> added v (b_i b) w <= added v j u.
Lemma meeting_unique v lim i w u : ccw v -> (4 <= length v)%nat -> removable v lim i w ->
  area (vertex v (i + length v - 1)) (nth i v (0, 0)) u = 0 -> area (vertex v (i + 1)) (vertex v (i + 2)) u = 0 -> u = w.
Proof.
  intros C L R A1 A2. pose proof (removable_det v lim i w C L R) as D. destruct R as (_ & Z1 & Z2 & _).
  clear - D A1 A2 Z1 Z2. unfold area, det in *. destruct u as [cx cy], w as [wx wy]. cbn [fst snd] in *.
  set (p := vertex v (i + length v - 1)) in *. set (a := nth i v (0, 0)) in *. set (b := vertex v (i + 1)) in *. set (s := vertex v (i + 2)) in *. clearbody p a b s.
  set (d := (fst a - fst p) * (snd s - snd b) - (snd a - snd p) * (fst s - fst b)) in *.
  assert (U1 : (fst a - fst p) * (cy - wy) - (snd a - snd p) * (cx - wx) = 0) by lra.
  assert (U2 : (fst s - fst b) * (cy - wy) - (snd s - snd b) * (cx - wx) = 0) by lra.
  assert (d * (cx - wx) = 0).
  { replace (d * (cx - wx)) with ((fst s - fst b) * ((fst a - fst p) * (cy - wy) - (snd a - snd p) * (cx - wx)) - (fst a - fst p) * ((fst s - fst b) * (cy - wy) - (snd s - snd b) * (cx - wx))) by (unfold d; ring).
    rewrite U1, U2. ring. }
  assert (d * (cy - wy) = 0).
  { replace (d * (cy - wy)) with ((snd s - snd b) * ((fst a - fst p) * (cy - wy) - (snd a - snd p) * (cx - wx)) - (snd a - snd p) * ((fst s - fst b) * (cy - wy) - (snd s - snd b) * (cx - wx))) by (unfold d; ring).
    rewrite U1, U2. ring. }
  apply pair_eq; [destruct (Rmult_integral d (cx - wx)); [assumption|contradiction|lra]|destruct (Rmult_integral d (cy - wy)); [assumption|contradiction|lra]].
Qed.
Lemma step_inv mid v lim b i b' : (forall a, mid (pt a) = a) -> ccw v -> (4 <= length v)%nat -> (i < length v)%nat ->
  search_inv v lim i b -> scan_step gexact mid v lim (Some b) i = Some b' -> search_inv v lim (S i) b'.
Proof.
  intros M C L Hi I E. destruct (neighbours v i C Hi) as [N1 N2].
  assert (SKIP : (forall u, ~ removable v lim i u) -> search_inv v lim (S i) b).
  { intros NO. destruct I as [(I1 & I2 & I3)|(w & I1 & I2 & I3 & I4 & I5 & I6)].
    - left. refine (conj I1 (conj I2 _)). intros j u Hj. destruct (Nat.eq_dec j i) as [->|]; [apply NO|apply I3; lia].
    - right. exists w. refine (conj I1 (conj I2 (conj _ (conj I4 (conj _ _))))); [lia| |].
      + intros Z j u Hj. destruct (Nat.eq_dec j i) as [->|]; [apply NO|apply (I5 Z); lia].
      + intros j u Hj R. destruct (Nat.eq_dec j i) as [->|]; [destruct (NO u R)|apply I6; auto; lia]. }
  destruct (Req_dec (det (vertex v (i + length v - 1)) (nth i v (0, 0)) (vertex v (i + 1)) (vertex v (i + 2))) 0) as [D|D].
  { destruct (step_par mid v lim b i C Hi D) as [X|X]; rewrite X in E; [|discriminate]. injection E as <-. apply SKIP. intros u R. exact (removable_det _ _ _ _ C L R D). }
  destruct (proj_det _ _ _ _ N1 N2 D) as (w & _ & Z1 & Z2). rewrite (step_pts mid v lim b i w M C Hi D Z1 Z2) in E.
  destruct (contains (fst lim) (fst w) && contains (snd lim) (snd w)) eqn:IN.
  2: { injection E as <-. apply SKIP. intros u R. assert (w = u) as -> by (apply (meeting_unique v lim i u w C L R); assumption).
       destruct R as (_ & _ & _ & _ & [R1 R2]). rewrite (proj2 (contains_true _ _) R1), (proj2 (contains_true _ _) R2) in IN. discriminate. }
  destruct (Rltb (area (nth i v (0, 0)) w (vertex v (i + 1))) 0) eqn:O.
  { injection E as <-. apply SKIP. intros u R. assert (w = u) as -> by (apply (meeting_unique v lim i u w C L R); assumption).
    destruct R as (_ & _ & _ & R & _). apply Rltb_true in O. lra. }
  apply Rltb_false in O. apply andb_prop in IN as [IN1 IN2]. apply contains_true in IN1, IN2.
  assert (R : removable v lim i w) by (refine (conj Hi (conj Z1 (conj Z2 (conj _ (conj IN1 IN2))))); lra).
  assert (UN : forall u, removable v lim i u -> u = w) by (intros u Ru; symmetry; apply (meeting_unique v lim i u w C L Ru); assumption).
  fold (added v i w) in E. destruct (Nat.eqb (b_i b) 0) eqn:B0.
  - apply Nat.eqb_eq in B0. cbn [orb] in E. injection E as <-. right. exists w. cbn [b_inter b_surf b_i].
    assert (NJ : forall j u, (1 <= j < i)%nat -> ~ removable v lim j u).
    { intros j u Hj. destruct I as [(_ & _ & I3)|(w' & _ & _ & _ & _ & I5 & _)]; [apply I3; lia|apply (I5 B0); lia]. }
    refine (conj eq_refl (conj eq_refl (conj _ (conj R (conj _ _))))); [lia| |].
    + intros -> j u Hj. lia.
    + intros j u Hj Rj. destruct (Nat.eq_dec j i) as [->|]; [rewrite (UN u Rj); lra|]. destruct (NJ j u ltac:(lia) Rj).
  - apply Nat.eqb_neq in B0. cbn [orb] in E. destruct I as [(_ & I2 & _)|(w' & I1 & I2 & I3 & I4 & I5 & I6)]; [contradiction|]. rewrite I2 in E. cbn [surf_lt] in E.
    destruct (Rltb (added v i w) (added v (b_i b) w')) eqn:Q; injection E as <-; right.
    + apply Rltb_true in Q. exists w. cbn [b_inter b_surf b_i]. refine (conj eq_refl (conj eq_refl (conj _ (conj R (conj _ _))))); [lia| |].
      * intros ->. lia.
      * intros j u Hj Rj. destruct (Nat.eq_dec j i) as [->|]; [rewrite (UN u Rj); lra|]. specialize (I6 j u ltac:(lia) Rj). lra.
    + apply Rltb_false in Q. exists w'. refine (conj I1 (conj I2 (conj _ (conj I4 (conj _ _))))); [lia| |].
      * intros Z. contradiction.
      * intros j u Hj Rj. destruct (Nat.eq_dec j i) as [->|]; [rewrite (UN u Rj); lra|]. apply I6; auto. lia.
Qed.
Lemma fold_none mid v lim l : fold_left (scan_step gexact mid v lim) l None = None.
Proof. induction l; auto. Qed.
Lemma scan_inv mid v lim b : (forall a, mid (pt a) = a) -> ccw v -> (4 <= length v)%nat -> scan gexact mid v lim = Some b -> search_inv v lim (length v) b.
Proof.
  intros M C L. unfold scan.
  assert (G : forall n k b0, (k + n <= length v)%nat -> search_inv v lim k b0 -> fold_left (scan_step gexact mid v lim) (seq k n) (Some b0) = Some b -> search_inv v lim (k + n) b).
  { induction n as [|n IH]; intros k b0 K I E; cbn [seq fold_left] in E.
    - injection E as <-. rewrite Nat.add_0_r. exact I.
    - destruct (scan_step gexact mid v lim (Some b0) k) as [b1|] eqn:E1; [|rewrite fold_none in E; discriminate].
      rewrite Nat.add_succ_r. apply (IH (S k) b1); [lia| |exact E]. apply (step_inv mid v lim b0 k b1); auto. lia. }
  apply (G (length v) 0%nat); [lia|]. left. split; [reflexivity|]. split; [reflexivity|]. intros j w Hj. lia.
Qed.

(** ** The loop *)
Lemma in_conv_box (vs : list pt2) x z : (forall v, List.In v vs -> ptin v x) -> conv vs z -> ptin z x.
Proof. intros H. apply (conv_min vs (fun p => ptin p x)); [apply ptin_convex|exact H]. Qed.
Lemma loop_spec mid a b c d m : (forall r, mid (pt r) = r) -> a < b -> c < d -> (3 <= m)%nat -> forall fuel v, (length v <= fuel)%nat -> ccw v ->
  (forall x, List.In x v -> ptin x (I2 a b, I2 c d)) ->
  let r := simplify_loop gexact mid fuel (I2 a b, I2 c d) m v in
  ccw r /\ (forall z, conv v z -> conv r z) /\ (forall z, conv r z -> ptin z (I2 a b, I2 c d)) /\ (length r <= length v \/ r = poly_of_box gexact (I2 a b, I2 c d))%nat /\
  ((length r <= m)%nat \/ r = poly_of_box gexact (I2 a b, I2 c d) \/ forall i w, ~ removable r (I2 a b, I2 c d) i w).
Proof.
  intros M Hab Hcd Hm. set (lim := (I2 a b, I2 c d)). induction fuel as [|fuel IH]; intros v Lf C B r.
  - destruct C as [C _]. lia.
  - unfold r. cbn [simplify_loop]. destruct (length v <=? m) eqn:Lm.
    { apply Nat.leb_le in Lm. refine (conj C (conj (fun z H => H) (conj (fun z => in_conv_box v lim z B) (conj _ _)))); left; auto. }
    apply Nat.leb_gt in Lm. destruct (scan gexact mid v lim) as [bb|] eqn:E.
    2: { assert (CB : compact lim) by (exists a, b, c, d; repeat split; lra).
         refine (conj (box_poly_ccw a b c d Hab Hcd) (conj _ (conj _ (conj _ _)))); [| |auto|auto].
         - intros z Hz. apply C82_box; [exact CB|]. exact (in_conv_box v lim z B Hz).
         - intros z Hz. apply C82_box in Hz; [exact Hz|exact CB]. }
    pose proof (scan_inv mid v lim bb M C ltac:(lia) E) as I. destruct I as [(I1 & _ & I3)|(w & I1 & _ & I3 & R & _)].
    + rewrite I1. refine (conj C (conj (fun z H => H) (conj (fun z => in_conv_box v lim z B) (conj (or_introl (le_n _)) _)))). right. right.
      intros i w Rw. apply (I3 i w); [apply Rw|exact Rw].
    + rewrite I1. change (t_empty (tvec w)) with false. rewrite tvec_some. cbn [fst snd]. rewrite !M.
      replace (fst w, snd w) with w by (destruct w; reflexivity). destruct R as (_ & Z1 & Z2 & O & IL).
      destruct (cut_sound v (b_i bb) w C ltac:(lia) I3 Z1 Z2 O) as (C' & S' & V' & L').
      assert (B' : forall x, List.In x (erase ((b_i bb + 1) mod length v) (put (b_i bb) w v)) -> ptin x lim).
      { intros x Hx. destruct (V' x Hx) as [->|Hv]; [exact IL|exact (B x Hv)]. }
      assert (LF : (length (erase ((b_i bb + 1) mod length v) (put (b_i bb) w v)) <= fuel)%nat) by (unfold polygon in *; lia).
      destruct (IH _ LF C' B') as (J1 & J2 & J3 & J4 & J5). refine (conj J1 (conj _ (conj J3 (conj _ J5)))).
      * intros z Hz. apply J2, S', Hz.
      * destruct J4 as [J4|J4]; [left|right; exact J4]. unfold polygon in *. lia.
Qed.
Lemma limit_eq v : ccw v -> exists xl xu yl yu, poly_box v = (I2 xl xu, I2 yl yu) /\ (forall p, List.In p v -> xl <= fst p <= xu /\ yl <= snd p <= yu) /\
  let r := Rmax (xu - xl) (yu - yl) * 2 in 0 < r /\ box_limit gexact v = (I2 (xl - r) (xu + r), I2 (yl - r) (yu + r)) /\ xl <= xu /\ yl <= yu.
Proof.
  intros C. pose proof (proj1 C) as L. assert (N : v <> []) by (intros ->; cbn in L; lia).
  destruct (box_spec v N) as (xl & xu & yl & yu & E & B & _ & _). exists xl, xu, yl, yu. refine (conj E (conj B _)). cbn zeta.
  assert (N01 : nth 0 v (0, 0) <> nth 1 v (0, 0)) by (apply ccw_neq; auto; lia).
  assert (I0 : List.In (nth 0 v (0, 0)) v) by (apply nth_In; lia). assert (I1 : List.In (nth 1 v (0, 0)) v) by (apply nth_In; lia).
  apply B in I0, I1. refine (conj _ (conj _ (conj _ _))); try lra.
  - pose proof (Rmax_l (xu - xl) (yu - yl)). pose proof (Rmax_r (xu - xl) (yu - yl)). destruct (ne_cases _ _ N01); lra.
  - unfold box_limit. rewrite E. reflexivity.
Qed.

(** ** C84: the simplified polygon encloses the polygon *)
Theorem C84_encloses : forall mid m P, (forall r, mid (pt r) = r) -> (3 <= m)%nat -> ccw P ->
  forall z, conv P z -> conv (simplify gexact mid m P) z.
Proof.
  intros mid m P M Hm C. destruct (limit_eq P C) as (xl & xu & yl & yu & E & B & R & L & X & Y). cbn zeta in *. unfold simplify. rewrite L.
  apply loop_spec; auto; try lra. intros p Hp. apply B in Hp. split; cbn; lra.
Qed.
(** ... it is still strictly convex and counterclockwise *)
Theorem C84_convex : forall mid m P, (forall r, mid (pt r) = r) -> (3 <= m)%nat -> ccw P -> ccw (simplify gexact mid m P).
Proof.
  intros mid m P M Hm C. destruct (limit_eq P C) as (xl & xu & yl & yu & E & B & R & L & X & Y). cbn zeta in *. unfold simplify. rewrite L.
  apply loop_spec; auto; try lra. intros p Hp. apply B in Hp. split; cbn; lra.
Qed.
(** ... and it stays in the box of the polygon inflated by twice its largest side *)
Theorem C84_limit : forall mid m P xl xu yl yu, (forall r, mid (pt r) = r) -> (3 <= m)%nat -> ccw P -> poly_box P = (I2 xl xu, I2 yl yu) ->
  forall z, conv (simplify gexact mid m P) z -> let r := 2 * Rmax (xu - xl) (yu - yl) in xl - r <= fst z <= xu + r /\ yl - r <= snd z <= yu + r.
Proof.
  intros mid m P xl' xu' yl' yu' M Hm C E' z Hz. destruct (limit_eq P C) as (xl & xu & yl & yu & E & B & R & L & X & Y). cbn zeta in *.
  rewrite E in E'. injection E' as -> -> -> ->. unfold simplify in Hz. rewrite L in Hz.
  destruct (loop_spec mid (xl' - Rmax (xu' - xl') (yu' - yl') * 2) (xu' + Rmax (xu' - xl') (yu' - yl') * 2) (yl' - Rmax (xu' - xl') (yu' - yl') * 2) (yu' + Rmax (xu' - xl') (yu' - yl') * 2) m M ltac:(lra) ltac:(lra) Hm (length P) P (le_n _) C) as (_ & _ & H & _).
  { intros p Hp. apply B in Hp. split; cbn; lra. }
  apply H in Hz. destruct Hz as [H1 H2]. cbn in H1, H2. lra.
Qed.
(** the number of vertices: at most [m], unless the polygon is replaced by its limit, or no more edge can be removed *)
Theorem C84_size_partial : forall mid m P, (forall r, mid (pt r) = r) -> (3 <= m)%nat -> ccw P -> let r := simplify gexact mid m P in
  (length r <= m)%nat \/ r = poly_of_box gexact (box_limit gexact P) \/ forall i w, ~ removable r (box_limit gexact P) i w.
Proof.
  intros mid m P M Hm C. destruct (limit_eq P C) as (xl & xu & yl & yu & E & B & R & L & X & Y). cbn zeta in *. unfold simplify. rewrite L.
  apply loop_spec; auto; try lra. intros p Hp. apply B in Hp. split; cbn; lra.
Qed.
(** a polygon that is small enough is left as it is *)
Theorem C84_small : forall mid m P, (length P <= m)%nat -> simplify gexact mid m P = P.
Proof. intros mid m P H. unfold simplify. destruct (length P) as [|n] eqn:E; [reflexivity|]. cbn [simplify_loop]. rewrite E. rewrite (proj2 (Nat.leb_le _ _) H). reflexivity. Qed.
(** the edge that is removed adds the least surface, among the ones other than the first *)
Theorem C84_least_partial : forall mid v lim b, (forall r, mid (pt r) = r) -> ccw v -> (4 <= length v)%nat -> scan gexact mid v lim = Some b ->
  t_empty (b_inter b) = false -> exists w, b_inter b = tvec w /\ removable v lim (b_i b) w /\
    forall j u, j <> 0%nat -> removable v lim j u -> added v (b_i b) w <= added v j u.
Proof.
  intros mid v lim b M C L E T. destruct (scan_inv mid v lim b M C L E) as [(I1 & _)|(w & I1 & _ & _ & R & _ & I6)]; [congruence|].
  exists w. refine (conj I1 (conj R _)). intros j u Hj Rj. apply (I6 j u); [|exact Rj]. destruct Rj as [Hl _]. lia.
Qed.

(** ** Concrete cases *)
Lemma quad_ccw (a b c d : pt2) : 0 < area a b c -> 0 < area a b d -> 0 < area a c d -> 0 < area b c d -> ccw [a; b; c; d].
Proof.
  intros H1 H2 H3 H4. split; [cbn; lia|]. intros i j k Hi Hk. cbn [length] in Hk.
  destruct i as [|[|i]]; destruct j as [|[|[|j]]]; destruct k as [|[|[|[|k]]]]; try lia; assumption.
Qed.
Lemma step_skip mid v lim b i p1 p2 q1 q2 : vertex v (i + length v - 1) = p1 -> nth i v (0, 0) = p2 -> vertex v (i + 1) = q1 -> vertex v (i + 2) = q2 ->
  (fst p1 = fst p2 /\ fst q1 = fst q2) \/ (snd p1 = snd p2 /\ snd q1 = snd q2) -> scan_step gexact mid v lim (Some b) i = Some b.
Proof.
  intros E1 E2 E3 E4 H. unfold scan_step. rewrite E1, E2, E3, E4, !tedge_pts. unfold parallel. rewrite !vertical_pts, !horizontal_pts.
  destruct H as [[-> ->]|[-> ->]]; rewrite !Reqb_refl; [reflexivity|]. destruct (_ && _); reflexivity.
Qed.
Definition square : polygon := [(0, 0); (1, 0); (1, 1); (0, 1)].
Lemma square_ccw : ccw square.
Proof. apply quad_ccw; unfold area; cbn; lra. Qed.
(** a square cannot be reduced to three vertices *)
Theorem C84_size_refuted : exists P m, ccw P /\ (3 <= m)%nat /\ (m < length (simplify gexact xmid m P))%nat.
Proof.
  exists square, 3%nat. refine (conj square_ccw (conj (le_n _) _)).
  assert (E : scan gexact xmid square (box_limit gexact square) = Some (mkBest t_none (Some 0) 0)).
  { unfold scan. cbn [length square seq fold_left].
    rewrite (step_skip xmid square _ _ 0 (0, 1) (0, 0) (1, 0) (1, 1)), (step_skip xmid square _ _ 1 (0, 0) (1, 0) (1, 1) (0, 1)),
      (step_skip xmid square _ _ 2 (1, 0) (1, 1) (0, 1) (0, 0)), (step_skip xmid square _ _ 3 (1, 1) (0, 1) (0, 0) (1, 0)); cbn; auto. }
  unfold simplify. cbn [length square simplify_loop Nat.leb]. fold square. rewrite E. cbn [b_inter t_empty t_none fst is_empty length square]. lia.
Qed.
(** a diamond is replaced by a box that is five times larger *)
Definition diamond : polygon := [(1, 0); (0, 1); (-1, 0); (0, -1)].
Example C84_diamond : ccw diamond /\ simplify gexact xmid 3 diamond = poly_of_box gexact (I2 (-5) 5, I2 (-5) 5) /\ conv (simplify gexact xmid 3 diamond) (5, 5).
Proof.
  assert (C : ccw diamond) by (apply quad_ccw; unfold area; cbn; lra).
  assert (B : box_limit gexact diamond = (I2 (-5) 5, I2 (-5) 5)).
  { unfold box_limit. assert (E : poly_box diamond = (I2 (-1) 1, I2 (-1) 1)) by (unfold poly_box, diamond; cbn; unfold t_hull; cbn; reval; reflexivity).
    rewrite E. cbn [fst snd I2 diam_of]. replace (Rmax (1 - -1) (1 - -1)) with 2 by (rewrite Rmax_left; lra). apply box_eq; lra. }
  assert (E : simplify gexact xmid 3 diamond = poly_of_box gexact (I2 (-5) 5, I2 (-5) 5)).
  { unfold simplify. cbn [length diamond simplify_loop Nat.leb]. fold diamond. rewrite B.
    assert (S0 : scan_step gexact xmid diamond (I2 (-5) 5, I2 (-5) 5) (Some (mkBest t_none (Some 0) 0)) 0 = None).
    { unfold scan_step. change (vertex diamond (0 + length diamond - 1)) with ((0, -1) : pt2). change (nth 0 diamond (0, 0)) with ((1, 0) : pt2).
      change (vertex diamond (0 + 1)) with ((0, 1) : pt2). change (vertex diamond (0 + 2)) with ((-1, 0) : pt2). rewrite !tedge_pts.
      assert (P : proj_intersection gexact (tvec (0, -1), tvec (1, 0)) (tvec (0, 1), tvec (-1, 0)) = t_none).
      { rewrite <- !tedge_pts. apply parallel_proj; [apply v_eqb_f; intros X; injection X; lra|cbn; lra|cbn; lra|unfold det; cbn; lra]. }
      unfold parallel. rewrite !vertical_pts, !horizontal_pts, P. cbn [fst snd]. rewrite !(Reqb_f 0 1), !(Reqb_f (-1) 0) by lra. reflexivity. }
    unfold scan. cbn [length diamond seq fold_left]. fold diamond. rewrite S0. reflexivity. }
  refine (conj C (conj E _)). rewrite E. apply C82_box; [exists (-5), 5, (-5), 5; repeat split; lra|]. split; cbn; lra.
Qed.
(** the corner (0,1) (1,0) is nearly closed, but another edge is removed *)
Definition nearly : polygon := [(0, 1); (1, 0); (3, 0); (0, 5)].
Lemma nearly_ccw : ccw nearly.
Proof. apply quad_ccw; unfold area; cbn; lra. Qed.
Lemma nearly_limit : box_limit gexact nearly = (I2 (-10) 13, I2 (-10) 15).
Proof.
  unfold box_limit. assert (E : poly_box nearly = (I2 0 3, I2 0 5)) by (unfold poly_box, nearly; cbn; unfold t_hull; cbn; reval; reflexivity).
  rewrite E. cbn [fst snd I2 diam_of]. replace (Rmax (3 - 0) (5 - 0)) with 5 by (rewrite Rmax_right; lra). apply box_eq; lra.
Qed.
Lemma xmid_pt r : xmid (pt r) = r.
Proof. unfold xmid, pt. lra. Qed.
Lemma nearly_scan : scan gexact xmid nearly (box_limit gexact nearly) = Some (mkBest (tvec (6, -5)) (Some (added nearly 1 (6, -5))) 1).
Proof.
  rewrite nearly_limit. unfold scan. cbn [length nearly seq fold_left]. fold nearly.
  assert (IN : forall x y, -10 <= x <= 13 -> -10 <= y <= 15 -> contains (I2 (-10) 13) x && contains (I2 (-10) 15) y = true).
  { intros x y Hx Hy. rewrite (proj2 (contains_true (I2 (-10) 13) x)), (proj2 (contains_true (I2 (-10) 15) y)); [reflexivity| |]; cbn; lra. }
  rewrite (step_pts xmid nearly _ _ 0 (0, 0) xmid_pt nearly_ccw); [|cbn; lia|unfold det; cbn; lra|unfold area; cbn; lra|unfold area; cbn; lra].
  cbn [fst snd]. rewrite IN by lra. rewrite (Rltb_f (area _ _ _)) by (unfold area; cbn; lra). cbn [b_i Nat.eqb orb].
  rewrite (step_pts xmid nearly _ _ 1 (6, -5) xmid_pt nearly_ccw); [|cbn; lia|unfold det; cbn; lra|unfold area; cbn; lra|unfold area; cbn; lra].
  cbn [fst snd]. rewrite IN by lra. rewrite (Rltb_f (area _ _ _)) by (unfold area; cbn; lra). cbn [b_i Nat.eqb orb].
  rewrite (step_pts xmid nearly _ _ 2 (0, 0) xmid_pt nearly_ccw); [|cbn; lia|unfold det; cbn; lra|unfold area; cbn; lra|unfold area; cbn; lra].
  cbn [fst snd]. rewrite IN by lra. rewrite (Rltb_t (area _ _ _)) by (unfold area; cbn; lra).
  rewrite (step_pts xmid nearly _ _ 3 (6, -5) xmid_pt nearly_ccw); [|cbn; lia|unfold det; cbn; lra|unfold area; cbn; lra|unfold area; cbn; lra].
  cbn [fst snd]. rewrite IN by lra. rewrite (Rltb_t (area _ _ _)) by (unfold area; cbn; lra). reflexivity.
Qed.
(** the first edge adds 1/2, the one that is removed adds 5: an edge found at index 0 is forgotten *)
Theorem C84_least_refuted : exists P lim b w, ccw P /\ lim = box_limit gexact P /\ scan gexact xmid P lim = Some b /\ removable P lim 0 w /\ exists u, b_inter b = tvec u /\ added P 0 w < added P (b_i b) u.
Proof.
  exists nearly, (box_limit gexact nearly). exists (mkBest (tvec (6, -5)) (Some (added nearly 1 (6, -5))) 1), (0, 0).
  refine (conj nearly_ccw (conj eq_refl (conj nearly_scan (conj _ _)))).
  - rewrite nearly_limit. unfold removable, area, vertex, ptin. cbn. repeat split; try lra; lia.
  - exists (6, -5). split; [reflexivity|]. cbn [b_i]. unfold added, area, vertex. cbn. rewrite !Rabs_pos_eq by lra. lra.
Qed.
Example C84_nearly : simplify gexact xmid 3 nearly = [(0, 1); (6, -5); (0, 5)] /\ conv nearly (3, 0) /\ conv (simplify gexact xmid 3 nearly) (3, 0).
Proof.
  assert (H : conv nearly (3, 0)) by (apply conv_vertex; cbn; tauto).
  refine (conj _ (conj H (C84_encloses xmid 3 nearly xmid_pt (le_n _) nearly_ccw _ H))).
  unfold simplify. cbn [length nearly simplify_loop Nat.leb]. fold nearly. rewrite nearly_scan. cbn [b_inter b_i]. change (t_empty (tvec (6, -5))) with false. cbn iota.
  rewrite tvec_some. cbn [fst snd]. rewrite !xmid_pt. reflexivity.
Qed.
Print Assumptions C84_encloses.
Print Assumptions C84_convex.
Print Assumptions C84_size_partial.
Print Assumptions C84_least_partial.
Print Assumptions C84_least_refuted.
