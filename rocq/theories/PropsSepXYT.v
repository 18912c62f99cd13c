(** * C122: the separator SepPolarXYT *)
From Coq Require Import Reals Lra Lia Bool List.
From Verif Require Import Itv Arith Concrete Static PropsPolar PolarE SepPolar SepPolarXYT.
Open Scope R_scope.

(** ** Spec *)
Definition in3 (p : R * R * R) (b : box3) : Prop := let '(x, y, t) := p in let '(X, Y, T) := b in In x X /\ In y Y /\ In t T.
Definition sub3 (b c : box3) : Prop := forall p, in3 p b -> in3 p c.
(** the pose [(x,y,heading)] sees the landmark [(mx,my)] at the distance [r] with the bearing [phi] *)
Definition sees (mx my : R) (p : R * R * R) (r phi : R) : Prop := let '(x, y, t) := p in mx - x = r * cos (t + phi) /\ my - y = r * sin (t + phi).
(** the set of the separator *)
Definition in_sector (mx my : R) (rho theta : itv) (p : R * R * R) : Prop := exists r phi, In r rho /\ In phi theta /\ 0 <= r /\ sees mx my p r phi.

Lemma in_norm3 p b : in3 p b -> in3 p (norm3 b).
Proof. destruct p as [[x y] t], b as [[X Y] T]. intros (H1 & H2 & H3). unfold norm3. destruct X; [contradiction|]. destruct Y; [contradiction|]. destruct T; [contradiction|]. cbn [is_empty orb]. split; auto. Qed.
Lemma norm3_sub b : sub3 (norm3 b) b.
Proof. intros p. destruct b as [[X Y] T]. unfold norm3. destruct (_ || _); auto. destruct p as [[x y] t]. intros (H & _). contradiction. Qed.
Lemma in_inter3 p b c : in3 p b -> in3 p c -> in3 p (inter3 b c).
Proof.
  destruct p as [[x y] t], b as [[X Y] T], c as [[X' Y'] T']. intros (H1 & H2 & H3) (G1 & G2 & G3). apply (in_norm3 (x, y, t)).
  split; [apply In_inter; auto|]. split; apply In_inter; auto.
Qed.
Lemma inter3_sub b c : sub3 (inter3 b c) b /\ sub3 (inter3 b c) c.
Proof.
  split; intros [[x y] t] H; destruct b as [[X Y] T], c as [[X' Y'] T']; unfold inter3 in H; apply (norm3_sub _ (x, y, t)) in H; destruct H as (H1 & H2 & H3);
    apply In_inter in H1, H2, H3; split; try split; tauto.
Qed.

(** ** Angles *)
Lemma principal t : exists a k, - PI < a <= PI /\ t = a + IZR k * (2 * PI).
Proof.
  destruct (angle_quadrants t) as (k & H). destruct (Req_dec (t - IZR k * (2 * PI)) (- PI)) as [E|N].
  - exists PI, (k - 1)%Z. split; [pose proof PI_RGT_0; lra|]. rewrite minus_IZR. lra.
  - exists (t - IZR k * (2 * PI)), k. split; lra.
Qed.
Lemma from_limit t l : exists k, l <= t + IZR k * (2 * PI) <= l + 2 * PI.
Proof. destruct (angle_quadrants (t - l - PI)) as (k & H). exists (- k)%Z. rewrite opp_IZR. lra. Qed.
Lemma cos_per t k : cos (t + IZR k * (2 * PI)) = cos t.
Proof. rewrite <- (cos_mod (t + IZR k * (2 * PI)) k). f_equal. ring. Qed.
Lemma sin_per t k : sin (t + IZR k * (2 * PI)) = sin t.
Proof. rewrite <- (sin_mod (t + IZR k * (2 * PI)) k). f_equal. ring. Qed.
Lemma polar_of_point u v : (u, v) <> (0, 0) -> exists r a, 0 < r /\ u = r * cos a /\ v = r * sin a.
Proof.
  intros N. set (r := sqrt (u * u + v * v)). assert (P : 0 < u * u + v * v).
  { pose proof (Rle_0_sqr u). pose proof (Rle_0_sqr v). unfold Rsqr in *. destruct (Req_dec (u * u + v * v) 0) as [Z|]; [|lra]. exfalso. apply N. f_equal; [apply Rsqr_0_uniq|apply Rsqr_0_uniq]; unfold Rsqr; lra. }
  assert (Hr : 0 < r) by (apply sqrt_lt_R0; auto). assert (Er : r * r = u * u + v * v) by (apply sqrt_sqrt; lra).
  assert (B : -1 <= u / r <= 1).
  { assert (u * u <= r * r) by (pose proof (Rle_0_sqr v); unfold Rsqr in *; lra). assert (Rabs u <= r).
    { rewrite <- (Rabs_right r) by lra. apply Rsqr_le_abs_0. unfold Rsqr. auto. }
    assert (- r <= u <= r) by (unfold Rabs in H0; destruct (Rcase_abs u); lra).
    split; apply Rmult_le_reg_r with r; auto; unfold Rdiv; rewrite Rmult_assoc, Rinv_l by lra; lra. }
  assert (S2 : forall a, cos a = u / r -> (r * sin a) * (r * sin a) = v * v).
  { intros a Ca. pose proof (sin2_cos2 a) as Q. unfold Rsqr in Q. replace (r * sin a * (r * sin a)) with (r * r * (sin a * sin a + cos a * cos a) - (r * cos a) * (r * cos a)) by ring.
    rewrite Q, Ca. replace (r * (u / r)) with u by (field; lra). lra. }
  pose proof (cos_acos (u / r) B) as Ca. pose proof (acos_bound (u / r)) as Hb. assert (0 <= sin (acos (u / r))) by (apply sin_ge_0; lra).
  assert (Sg : r * sin (acos (u / r)) = Rabs v).
  { apply Rsqr_inj; [apply Rmult_le_pos; lra|apply Rabs_pos|]. rewrite <- Rsqr_abs. unfold Rsqr. apply S2. auto. }
  destruct (Rle_dec 0 v) as [Hv|Hv].
  - exists r, (acos (u / r)). split; auto. rewrite Ca, Sg, Rabs_right by lra. split; [field; lra|auto].
  - exists r, (- acos (u / r)). split; auto. rewrite cos_neg, sin_neg, Ca. split; [field; lra|]. rewrite Rabs_left in Sg by lra. lra.
Qed.

Section Sound.
  Variables (E : elem) (A : angles) (mid : itv -> R) (mx my : R).
  Hypothesis HE : elem_ok E.
  Hypothesis HA : angles_ok A.
  Let HR := ar_ok E HE.

  (** one call of [contract] keeps the poses that see the landmark at a distance of [rho], with a bearing of [phi]; [M_PI] is arbitrary when the
      direction of the landmark is given in the range of atan2 *)
  Lemma contract_keeps M_PI p r ph k x y t rho phi : in3 p (x, y, t) -> In r rho -> In ph phi -> 0 < r -> sees mx my p r ph ->
    - PI < snd p + ph - IZR k * (2 * PI) <= PI -> (k = 0%Z \/ M_PI = PI) -> in3 p (xyt_contract E A M_PI mx my x y t rho phi).
  Proof.
    destruct p as [[px py] pt_]. intros (Hx & Hy & Ht) Hr Hp Pr (Sx & Sy) Ha Hk. cbn [snd] in Ha.
    set (a := pt_ + ph - IZR k * (2 * PI)) in *.
    assert (Ca : cos (pt_ + ph) = cos a). { unfold a. symmetry. apply cos_mod. }
    assert (Sa : sin (pt_ + ph) = sin a). { unfold a. symmetry. apply sin_mod. }
    unfold xyt_contract.
    set (dx1 := inter (isub (ar E) (pt mx) x) _). set (dy1 := inter (isub (ar E) (pt my) y) _).
    assert (D1 : In (r * cos a) dx1).
    { apply In_inter. split; [rewrite <- Ca, <- Sx; apply isub_in; auto; cbn; lra|]. apply imul_in; auto. rewrite <- Ca. apply icos_in; auto. apply iadd_in; auto. }
    assert (D2 : In (r * sin a) dy1).
    { apply In_inter. split; [rewrite <- Sa, <- Sy; apply isub_in; auto; cbn; lra|]. apply imul_in; auto. rewrite <- Sa. apply isin_in; auto. apply iadd_in; auto. }
    set (s1 := isqr E dx1). set (s2 := isqr E dy1).
    assert (Q1 : In (r * cos a * (r * cos a)) s1) by (apply isqr_in; auto). assert (Q2 : In (r * sin a * (r * sin a)) s2) by (apply isqr_in; auto).
    set (a4 := inter (isqr E rho) _). assert (Q4 : In (r * sin a * (r * sin a) + r * cos a * (r * cos a)) a4).
    { apply In_inter. split.
      - replace (r * sin a * (r * sin a) + r * cos a * (r * cos a)) with (r * r * (Rsqr (sin a) + Rsqr (cos a))) by (unfold Rsqr; ring). rewrite sin2_cos2, Rmult_1_r. apply isqr_in; auto.
      - rewrite Rplus_comm. apply iadd_in; auto. }
    set (a3 := inter _ a4). assert (Q3 : In (r * sin a * (r * sin a) + r * cos a * (r * cos a)) a3).
    { apply In_inter. split; auto. rewrite Rplus_comm. apply iadd_in; auto. }
    set (a21 := ibwd_add E a3 s2 s1). destruct (ibwd_add_in E HE _ _ s2 s1 a3 Q2 Q1 Q3) as (B2 & B1). fold a21 in B1, B2.
    set (dx2 := ibwd_sqr E (snd a21) dx1). set (dy2 := ibwd_sqr E (fst a21) dy1).
    assert (E1 : In (r * cos a) dx2) by (apply ibwd_sqr_in; auto). assert (E2 : In (r * sin a) dy2) by (apply ibwd_sqr_in; auto).
    set (a1 := iatan2 A dy2 dx2). assert (F1 : In a a1) by (apply (iatan2_in A HA a r); auto).
    set (a2 := snd (ibwd_imod A phi (isub (ar E) a1 t) (2 * M_PI))).
    assert (F2 : In (a - pt_) a2).
    { apply (ibwd_imod_in A HA ph (a - pt_) k (2 * M_PI)); auto; [apply isub_in; auto|]. unfold a. destruct Hk as [->| ->]; ring. }
    set (a1' := inter a1 (iadd (ar E) a2 t)).
    assert (F1' : In a a1'). { apply In_inter. split; auto. replace a with (a - pt_ + pt_) by ring. apply iadd_in; auto. }
    set (d := ibwd_atan2 A a1' dy2 dx2). destruct (ibwd_atan2_in A HA a r a1' dx2 dy2 Ha Pr F1' E1 E2) as (G2 & G1). fold d in G1, G2.
    apply (in_norm3 (px, py, pt_)). split; [|split]; apply In_inter; split; auto.
    - replace px with (mx - r * cos a) by (rewrite <- Ca, <- Sx; ring). apply isub_in; auto. cbn; lra.
    - replace py with (my - r * sin a) by (rewrite <- Sa, <- Sy; ring). apply isub_in; auto. cbn; lra.
    - replace pt_ with (a - (a - pt_)) at 1 by ring. apply isub_in; auto.
  Qed.
  Lemma contract_sub M_PI x y t rho phi : sub3 (xyt_contract E A M_PI mx my x y t rho phi) (x, y, t).
  Proof. intros [[px py] pt_] H. unfold xyt_contract in H. apply (norm3_sub _ (px, py, pt_)) in H. destruct H as (H1 & H2 & H3). apply In_inter in H1, H2, H3. split; try split; tauto. Qed.
  Lemma contract_keeps_PI p r ph x y t rho phi : in3 p (x, y, t) -> In r rho -> In ph phi -> 0 < r -> sees mx my p r ph ->
    in3 p (xyt_contract E A PI mx my x y t rho phi).
  Proof.
    intros Hp Hr Hph Pr Hs. destruct (principal (snd p + ph)) as (a & k & Ha & Ek). apply (contract_keeps PI p r ph k); auto. lra.
  Qed.
  Lemma hull4_in v a b c d : In v a \/ In v b \/ In v c \/ In v d -> In v (hull4 a b c d).
  Proof. intros H. unfold hull4. destruct H as [H|[H|[H|H]]]; auto using In_hull_l, In_hull_r. Qed.

  (** C122: the outer box only loses poses out of the set. *)
  Theorem C122_outer : forall rho theta xi xo p, in3 p xi -> in3 p xo -> in_sector mx my rho theta p -> (mx, my) <> fst p ->
    in3 p (snd (xyt_separate E A mid PI mx my rho theta xi xo)).
  Proof.
    intros rho theta xi xo p Hi Ho (r & phi & Hr & Hp & P0 & Hs) N. cbn [xyt_separate snd]. assert (Hb : in3 p (inter3 xo xi)) by (apply in_inter3; auto).
    destruct (inter3 xo xi) as [[X Y] T]. unfold xyt_out. apply in_norm3. apply (contract_keeps_PI p r phi); auto.
    destruct (Req_dec r 0) as [Z|]; [|lra]. exfalso. apply N. destruct p as [[px py] pt_]. destruct Hs as (Sx & Sy). rewrite Z in Sx, Sy. cbn [fst]. f_equal; lra.
  Qed.
  (** C122: the inner box only loses poses of the set. *)
  Theorem C122_inner : forall rho theta xi xo p, in3 p xi -> in3 p xo -> rho <> Emp -> theta <> Emp -> ~ in_sector mx my rho theta p -> (mx, my) <> fst p ->
    in3 p (fst (xyt_separate E A mid PI mx my rho theta xi xo)).
  Proof.
    intros rho theta xi xo p Hi Ho NR NT Hn N. cbn [xyt_separate fst]. assert (Hb : in3 p (inter3 xi (inter3 xo xi))) by (repeat apply in_inter3; auto).
    destruct (inter3 xi (inter3 xo xi)) as [[X Y] T]. unfold xyt_in.
    destruct (xyt_contract E A PI mx my X Y T POS (upto (mid theta - PI) theta)) as [[x1 y1] t1] eqn:E1.
    destruct (xyt_contract E A PI mx my X Y T POS (downto theta (mid theta - PI + 2 * PI))) as [[x2 y2] t2] eqn:E2.
    destruct (xyt_contract E A PI mx my X Y T (upto 0 rho) (bnd 0 (2 * PI))) as [[x3 y3] t3] eqn:E3.
    destruct (xyt_contract E A PI mx my X Y T (above rho) (bnd 0 (2 * PI))) as [[x4 y4] t4] eqn:E4.
    assert (K : in3 p (x1, y1, t1) \/ in3 p (x2, y2, t2) \/ in3 p (x3, y3, t3) \/ in3 p (x4, y4, t4)).
    { rewrite <- E1, <- E2, <- E3, <- E4. destruct p as [[px py] pt_].
      destruct (polar_of_point (mx - px) (my - py)) as (r & a & Pr & Ea & Eb). { intros Q. injection Q as Q1 Q2. apply N. cbn. f_equal; lra. }
      assert (Hs : forall k : Z, sees mx my (px, py, pt_) r (a - pt_ + IZR k * (2 * PI))).
      { intros k. unfold sees. replace (pt_ + (a - pt_ + IZR k * (2 * PI))) with (a + IZR k * (2 * PI)) by ring. rewrite cos_per, sin_per. auto. }
      destruct (from_limit (a - pt_) (mid theta - PI)) as (k & Hk). destruct (from_limit (a - pt_) 0) as (j & Hj).
      assert (Hin : ~ (In r rho /\ In (a - pt_ + IZR k * (2 * PI)) theta)). { intros (Q1 & Q2). apply Hn. exists r, (a - pt_ + IZR k * (2 * PI)). repeat split; auto; try lra; apply Hs. }
      assert (Hc : In (a - pt_ + IZR j * (2 * PI)) (bnd 0 (2 * PI))) by (apply In_bnd; lra).
      destruct (Itv.In_dec r rho) as [Hr|Hr].
      - assert (Ht : ~ In (a - pt_ + IZR k * (2 * PI)) theta) by tauto.
        assert (G : In (a - pt_ + IZR k * (2 * PI)) (upto (mid theta - PI) theta) \/ In (a - pt_ + IZR k * (2 * PI)) (downto theta (mid theta - PI + 2 * PI))).
        { destruct theta as [|[l|] [u|]]; [congruence| | | |]; cbn [In upto downto lo_le le_hi] in *; rewrite ?In_bnd.
          - destruct (Rle_dec l (a - pt_ + IZR k * (2 * PI))); [right|left; lra]. destruct (Rle_dec (a - pt_ + IZR k * (2 * PI)) u); [tauto|lra].
          - left. destruct (Rle_dec l (a - pt_ + IZR k * (2 * PI))); [tauto|lra].
          - right. destruct (Rle_dec (a - pt_ + IZR k * (2 * PI)) u); [tauto|lra].
          - tauto. }
        destruct G as [G|G]; [left|right; left]; (eapply contract_keeps_PI; [exact Hb| |exact G|exact Pr|apply Hs]); cbn; lra.
      - right; right. assert (G : In r (upto 0 rho) \/ In r (above rho)).
        { destruct rho as [|[l|] [u|]]; [congruence| | | |]; cbn [In upto above lo_le le_hi] in *; rewrite ?In_bnd.
          - destruct (Rle_dec l r); [right|left; lra]. destruct (Rle_dec r u); [tauto|lra].
          - left. destruct (Rle_dec l r); [tauto|lra].
          - right. destruct (Rle_dec r u); [tauto|lra].
          - tauto. }
        destruct G as [G|G]; [left|right]; (eapply contract_keeps_PI; [exact Hb|exact G|exact Hc|exact Pr|apply Hs]). }
    apply in_norm3. destruct p as [[px py] pt_]. destruct Hb as (H1 & H2 & H3). cbn [in3] in K |- *. split; [|split]; [apply In_inter; split; auto| |]; [|apply In_inter; split; auto|]; apply hull4_in; tauto.
  Qed.
End Sound.

Section Contracts.
  Variables (E : elem) (A : angles) (mid : itv -> R) (M_PI mx my : R).
  Hypothesis HE : elem_ok E.
  Hypothesis HA : angles_ok A.
  Lemma hull4_sub a b c d i : sub a i /\ wf a -> sub b i /\ wf b -> sub c i /\ wf c -> sub d i /\ wf d -> sub (hull4 a b c d) i.
  Proof. intros (Sa & Wa) (Sb & Wb) (Sc & Wc) (Sd & Wd). unfold hull4. auto 7 using hull_least, wf_hull. Qed.
  Lemma third_sub X Y T rho phi x y t : xyt_contract E A M_PI mx my X Y T rho phi = (x, y, t) -> sub t T /\ wf t.
  Proof. unfold xyt_contract, norm3. destruct (_ || _); intros H; injection H as <- <- <-; (split; [apply sub_Emp || apply sub_inter_l|exact Logic.I || apply wf_inter]). Qed.
  (** C122: both boxes are contracted. *)
  Theorem C122_contracts : forall rho theta xi xo,
    sub3 (fst (xyt_separate E A mid M_PI mx my rho theta xi xo)) xi /\ sub3 (snd (xyt_separate E A mid M_PI mx my rho theta xi xo)) xo.
  Proof.
    intros rho theta xi xo. cbn [xyt_separate fst snd]. split.
    - intros p H. apply (proj1 (inter3_sub xi (inter3 xo xi))). destruct (inter3 xi (inter3 xo xi)) as [[X Y] T]. unfold xyt_in in H.
      destruct (xyt_contract E A M_PI mx my X Y T POS (upto _ theta)) as [[x1 y1] t1] eqn:E1.
      destruct (xyt_contract E A M_PI mx my X Y T POS (downto theta _)) as [[x2 y2] t2] eqn:E2.
      destruct (xyt_contract E A M_PI mx my X Y T (upto 0 rho) _) as [[x3 y3] t3] eqn:E3.
      destruct (xyt_contract E A M_PI mx my X Y T (above rho) _) as [[x4 y4] t4] eqn:E4.
      apply norm3_sub in H. destruct p as [[px py] pt_]. destruct H as (H1 & H2 & H3). apply In_inter in H1, H2.
      split; [tauto|]. split; [tauto|]. revert H3. apply hull4_sub; eapply third_sub; eauto.
    - intros p H. apply (proj1 (inter3_sub xo xi)). destruct (inter3 xo xi) as [[X Y] T]. unfold xyt_out in H. apply norm3_sub in H. revert H. apply contract_sub; exact mid.
  Qed.
  (** C122: whatever the value of [M_PI], the outer box keeps the poses of the set for which the direction heading + bearing is in the range of atan2. *)
  Theorem C122_outer_range : forall rho theta xi xo p r phi, in3 p xi -> in3 p xo -> In r rho -> In phi theta -> 0 < r -> sees mx my p r phi ->
    - PI < snd p + phi <= PI -> in3 p (snd (xyt_separate E A mid M_PI mx my rho theta xi xo)).
  Proof.
    intros rho theta xi xo p r phi Hi Ho Hr Hp P0 Hs Ha. cbn [xyt_separate snd]. assert (Hb : in3 p (inter3 xo xi)) by (apply in_inter3; auto).
    destruct (inter3 xo xi) as [[X Y] T]. unfold xyt_out. apply in_norm3. apply (contract_keeps E A mx my HE HA M_PI p r phi 0); auto. lra.
  Qed.
End Contracts.
(** C122: each pose of both boxes, but the position of the landmark, is in the inner or in the outer box: the separator never loses a pose in both. *)
Theorem C122_complementary_partial : forall E A mid mx my, elem_ok E -> angles_ok A -> forall rho theta xi xo p, rho <> Emp -> theta <> Emp ->
  in3 p xi -> in3 p xo -> (mx, my) <> fst p ->
  let s := xyt_separate E A mid PI mx my rho theta xi xo in in3 p (fst s) \/ in3 p (snd s).
Proof.
  intros E A mid mx my HE HA rho theta xi xo p NR NT Hi Ho N s. destruct (Classical_Prop.classic (in_sector mx my rho theta p)) as [H|H].
  - right. apply C122_outer; auto.
  - left. apply C122_inner; auto.
Qed.

(** ** An instance: the angle is only known to be undefined for the origin *)
Definition angles0 : angles := {|
  iatan2 := fun Y X => if is_subset X (pt 0) && is_subset Y (pt 0) then Emp else I2 (- PI) PI;
  ibwd_atan2 := fun _ Y X => (Y, X);
  ibwd_imod := fun X Y _ => (X, Y) |}.
Lemma angles0_ok : angles_ok angles0.
Proof.
  constructor; cbn [angles0 iatan2 ibwd_atan2 ibwd_imod fst snd]; auto.
  intros a r X Y Ha Pr HX HY. destruct (is_subset X (pt 0) && is_subset Y (pt 0)) eqn:B; [|cbn; lra]. exfalso.
  apply andb_prop in B. destruct B as (BX & BY). apply (is_subset_sub _ _ BX) in HX. apply (is_subset_sub _ _ BY) in HY. apply In_pt in HX, HY.
  assert (cos a = 0) by (apply Rmult_eq_reg_l with r; lra). assert (sin a = 0) by (apply Rmult_eq_reg_l with r; lra).
  pose proof (sin2_cos2 a) as Q. unfold Rsqr in Q. rewrite H, H0 in Q. lra.
Qed.
Lemma lost T rho phi : xyt_contract ibexE angles0 PI 0 0 (pt 0) (pt 0) T rho phi = (Emp, Emp, Emp).
Proof.
  unfold xyt_contract. set (dx := inter (isub (ar ibexE) (pt 0) (pt 0)) (imul (ar ibexE) rho (icos ibexE (iadd (ar ibexE) T phi)))).
  set (dy := inter (isub (ar ibexE) (pt 0) (pt 0)) (imul (ar ibexE) rho (isin ibexE (iadd (ar ibexE) T phi)))).
  set (a21 := ibwd_add ibexE _ _ _).
  assert (Z : forall q, sub (inter (isub (ar ibexE) (pt 0) (pt 0)) q) (pt 0)).
  { intros q v Hv. apply In_inter in Hv. destruct Hv as (Hv & _). cbn in Hv. apply In_pt. lra. }
  assert (Q : forall a d, wf d -> sub d (pt 0) -> is_subset (ibwd_sqr ibexE a d) (pt 0) = true).
  { intros a d W S. apply sub_is_subset; [apply ibexE_sqr_wf; auto|]. intros v Hv. apply S. apply (ibwd_sqr_sub _ ibexE_ok) in Hv. auto. }
  cbn [angles0 iatan2]. rewrite (Q (snd a21) dx (wf_inter _ _) (Z _)), (Q (fst a21) dy (wf_inter _ _) (Z _)). cbn [andb].
  rewrite (isub_emp (ar ibexE) (ar_ok ibexE ibexE_ok) Emp T) by auto. cbn [angles0 ibwd_imod snd fst]. match goal with |- context [inter T (isub (ar ibexE) ?q Emp)] => rewrite (isub_emp (ar ibexE) (ar_ok ibexE ibexE_ok) q Emp) by auto end.
  assert (N : inter T Emp = Emp) by (destruct T; reflexivity). rewrite N. unfold norm3. cbn [is_empty]. rewrite orb_true_r. reflexivity.
Qed.
(** C122: the pose at the landmark is lost by both boxes when atan2(0,0) is empty, although it is not in the set. *)
Theorem C122_landmark_refuted : exists E A mid mx my rho theta b p, elem_ok E /\ angles_ok A /\ rho <> Emp /\ theta <> Emp /\ in3 p b /\ ~ in_sector mx my rho theta p /\
  let s := xyt_separate E A mid PI mx my rho theta b b in ~ in3 p (fst s) /\ ~ in3 p (snd s).
Proof.
  exists ibexE, angles0, (fun _ => 0), 0, 0, (I2 1 2), (I2 0 1), (pt 0, pt 0, I2 0 3), (0, 0, 1).
  split; [exact ibexE_ok|]. split; [exact angles0_ok|]. split; [discriminate|]. split; [discriminate|].
  split; [cbn; lra|]. split.
  { intros (r & phi & Hr & _ & _ & (Sx & Sy)). cbn in Hr. assert (cos (1 + phi) = 0) by (apply Rmult_eq_reg_l with r; lra).
    assert (sin (1 + phi) = 0) by (apply Rmult_eq_reg_l with r; lra). pose proof (sin2_cos2 (1 + phi)) as Q. unfold Rsqr in Q. rewrite H, H0 in Q. lra. }
  assert (B : inter3 (pt 0, pt 0, I2 0 3) (pt 0, pt 0, I2 0 3) = (pt 0, pt 0, I2 0 3)).
  { unfold inter3. assert (I0 : inter (pt 0) (pt 0) = pt 0) by (apply wf_ext; [apply wf_inter|apply wf_pt|intros; rewrite In_inter; tauto]).
    assert (I1 : inter (I2 0 3) (I2 0 3) = I2 0 3) by (apply wf_ext; [apply wf_inter|cbn; lra|intros; rewrite In_inter; tauto]). rewrite I0, I1. reflexivity. }
  unfold xyt_separate. rewrite !B. cbv zeta. cbn [fst snd]. unfold xyt_in, xyt_out. cbv zeta. rewrite !lost. split; intros H; apply norm3_sub in H; destruct H as (H & _); [apply In_inter in H; destruct H as (_ & H)|]; exact H.
Qed.
(** the hypotheses are met: a pose that sees the landmark (3,4) from the origin *)
Example C122_ex : exists E A, elem_ok E /\ angles_ok A /\ in_sector 3 4 (I2 4 6) ALL (0, 0, 1) /\
  in3 (0, 0, 1) (snd (xyt_separate E A (fun _ => 0) PI 3 4 (I2 4 6) ALL (I2 (-9) 9, I2 (-9) 9, I2 0 2) (I2 (-9) 9, I2 (-9) 9, I2 0 2))) /\
  in3 (2, 4, 1) (fst (xyt_separate E A (fun _ => 0) PI 3 4 (I2 4 6) ALL (I2 (-9) 9, I2 (-9) 9, I2 0 2) (I2 (-9) 9, I2 (-9) 9, I2 0 2))).
Proof.
  exists ibexE, angles0. split; [exact ibexE_ok|]. split; [exact angles0_ok|].
  assert (S : in_sector 3 4 (I2 4 6) ALL (0, 0, 1)).
  { destruct (polar_of_point 3 4) as (r & a & Pr & Ea & Eb); [intros [= H _]; lra|]. exists r, (a - 1). split; [|split; [apply In_ALL|split; [lra|]]].
    - assert (Q : r * r = 25). { pose proof (sin2_cos2 a) as Q. unfold Rsqr in Q. replace (r * r) with (r * r * (sin a * sin a + cos a * cos a)) by (rewrite Q; ring). replace (r * r * (sin a * sin a + cos a * cos a)) with ((r * sin a) * (r * sin a) + (r * cos a) * (r * cos a)) by ring. rewrite <- Ea, <- Eb. lra. }
      cbn. split; nra.
    - unfold sees. replace (1 + (a - 1)) with a by ring. lra. }
  split; auto. split.
  - apply C122_outer; auto using ibexE_ok, angles0_ok; try (cbn; lra). cbn. intros [= H _]. lra.
  - apply C122_inner; auto using ibexE_ok, angles0_ok; try (cbn; lra); try discriminate.
    + intros (r & phi & Hr & _ & _ & (Sx & Sy)). cbn in Hr. pose proof (COS_bound (1 + phi)). pose proof (sin2_cos2 (1 + phi)) as Q. unfold Rsqr in Q.
      assert (sin (1 + phi) = 0) by (apply Rmult_eq_reg_l with r; lra). rewrite H0 in Q. assert (r * cos (1 + phi) * (r * cos (1 + phi)) = 1) by (rewrite <- Sx; lra).
      assert (r * r * (cos (1 + phi) * cos (1 + phi)) = 1) by lra. replace (cos (1 + phi) * cos (1 + phi)) with 1 in H2 by lra. nra.
    + cbn. intros [= H]. lra.
Qed.

Print Assumptions C122_outer.
Print Assumptions C122_inner.
Print Assumptions C122_contracts.
Print Assumptions C122_outer_range.
Print Assumptions C122_complementary_partial.
Print Assumptions C122_landmark_refuted.
