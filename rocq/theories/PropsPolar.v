(** * Property C26: CtcPolar *)

From Coq Require Import Reals Lra Lia Bool List Arith.
Import ListNotations.
From Verif Require Import Itv Arith PropsDyn2 Static PropsStatic.
Open Scope R_scope.

(** The constraint of CtcPolar (header codac_CtcPolar.h): x = rho cos(theta), y = rho sin(theta). *)
Definition polar (x y rho th : R) : Prop := 0 <= rho /\ x = rho * cos th /\ y = rho * sin th.

Local Ltac dq := match goal with |- context [if ?c then EEE else ?d] => destruct (if c then EEE else d) as [[? ?] ?] end.

Section Polar.
  Variables (E : elem) (DBL_MAX : R).
  Hypothesis HE : elem_ok E.
  Let HA := ar_ok E HE.

  Lemma xneg_in x X : In x X -> In (- x) (xneg X).
  Proof. apply (ineg_in exact exact_ok). Qed.
  Lemma xneg_in' x X : In x (xneg X) -> In (- x) X.
  Proof. destruct X as [|[a|] [b|]]; cbn; intuition lra. Qed.
  Lemma xneg_wf X : wf X -> wf (xneg X).
  Proof. apply (ineg_wf exact exact_ok). Qed.
  Lemma in_0_pi2 x : In x i_0_pi2 <-> 0 <= x <= PI / 2.
  Proof. unfold i_0_pi2, HALF_PI_i. cbn. pose proof PI_RGT_0. rewrite Rmin_left, Rmax_right by lra. tauto. Qed.
  Lemma in_pi_2pi x : In x i_pi_2pi <-> PI / 2 <= x <= PI.
  Proof. unfold i_pi_2pi, HALF_PI_i, PI_i. cbn. pose proof PI_RGT_0. rewrite Rmin_left, Rmax_right by lra. tauto. Qed.

  (** [bwd_imod2] keeps the pairs equal modulo 2 pi *)
  Lemma imod_in x y X Y k : In x X -> In y Y -> x = y + IZR k * (2 * PI) -> In x (Cmod_bwd E X Y) /\ In y (Cmod E X Y).
  Proof.
    intros HX HY Exy. unfold Cmod, Cmod_bwd, bwd_imod2. cbn [fst snd]. pose proof PI_RGT_0.
    set (z2 := iint E _). assert (In (IZR k) z2) as Hk.
    { apply iint_in; auto. replace (IZR k) with ((x - y) / (2 * PI)) by (rewrite Exy; field; lra).
      apply idiv_in; auto; [apply isub_in; auto|cbn; lra|lra]. }
    assert (In (IZR k * (2 * PI)) (imul (ar E) z2 (pt (2 * PI)))) as Hm by (apply imul_in; auto; cbn; lra).
    assert (In x (inter X (iadd (ar E) Y (imul (ar E) z2 (pt (2 * PI)))))) as Hx.
    { apply In_inter. split; auto. rewrite Exy. apply iadd_in; auto. }
    split; auto. apply In_inter. split; auto. replace y with (x - IZR k * (2 * PI)) by (rewrite Exy; ring). apply isub_in; auto.
  Qed.
  Lemma Cmod_sub X Y : sub (Cmod E X Y) Y. Proof. apply sub_inter_l. Qed.
  Lemma Cmod_wf X Y : wf (Cmod E X Y). Proof. apply wf_inter. Qed.

  Lemma tan_hull_in a b th : 0 <= a -> b <= PI / 2 -> a <= th <= b -> 0 < th < PI / 2 ->
    In (tan th) (hull (itan E (pt a)) (if Reqb b (PI / 2) then Itv (Some DBL_MAX) None else itan E (pt b))).
  Proof.
    intros Ha Hb Hth Hin.
    assert (In (tan a) (itan E (pt a))) as Hta by (apply itan_in; auto; [cbn; lra|]; apply Rgt_not_eq, cos_gt_0; lra).
    assert (tan a <= tan th) as H1. { destruct (Req_dec a th) as [ -> |N]; [lra|]. apply Rlt_le, tan_increasing; lra. }
    destruct (Reqb b (PI / 2)) eqn:Eb.
    - apply (In_convex (tan a) (tan th) (Rmax DBL_MAX (tan th))).
      + apply In_hull_l; auto.
      + apply In_hull_r. cbn. split; auto. apply Rmax_l.
      + split; auto. apply Rmax_r.
    - apply Reqb_false in Eb. apply (In_convex (tan a) (tan th) (tan b)).
      + apply In_hull_l; auto.
      + apply In_hull_r. apply itan_in; auto; [cbn; lra|]. apply Rgt_not_eq, cos_gt_0; lra.
      + split; auto. destruct (Req_dec b th) as [ -> |N]; [lra|]. apply Rlt_le, tan_increasing; lra.
  Qed.
  (** the first quadrant, axes excluded *)
  Lemma q1_in x y th r X Y TH : In x X -> In y Y -> In th TH -> 0 < x -> 0 < y -> 0 < r -> x = r * cos th -> y = r * sin th -> 0 <= th <= PI / 2 ->
    let '(X', Y', TH') := catan2_q1 E DBL_MAX X Y TH in In x X' /\ In y Y' /\ In th TH'.
  Proof.
    intros HX HY HT Px Py Pr Ex Ey Hth. unfold catan2_q1. pose proof PI_RGT_0.
    assert (0 < th < PI / 2) as Hin.
    { split.
      - destruct (Req_dec th 0) as [ -> |]; [rewrite sin_0 in Ey; lra|lra].
      - destruct (Req_dec th (PI / 2)) as [ -> |]; [rewrite cos_PI2 in Ex; lra|lra]. }
    assert (itv_eqb X (pt 0) = false) as Zx. { apply itv_eqb_false. intros ->. cbn in HX. lra. }
    assert (itv_eqb Y (pt 0) = false) as Zy. { apply itv_eqb_false. intros ->. cbn in HY. lra. }
    rewrite Zx, Zy. cbn [andb].
    destruct (imod_in th th TH i_0_pi2 0 HT ltac:(apply in_0_pi2; lra) ltac:(lra)) as [_ HC].
    assert (forall z, In z (Cmod E TH i_0_pi2) -> 0 <= z <= PI / 2) as HB by (intros z Hz; apply in_0_pi2; eapply Cmod_sub; eauto).
    pose proof (Cmod_wf TH i_0_pi2) as WC.
    set (tt := Cmod E TH i_0_pi2) in *.
    assert (exists a b, tt = Itv (Some a) (Some b) /\ 0 <= a /\ a <= b /\ b <= PI / 2 /\ a <= th <= b) as (a & b & Et & B1 & B2 & B3 & B4).
    { destruct tt as [|[a|] [b|]]; cbn in HC; try tauto.
      - cbn in WC. exists a, b. pose proof (HB a ltac:(cbn; lra)). pose proof (HB b ltac:(cbn; lra)). repeat split; lra.
      - exfalso. pose proof (HB (Rmax a (PI / 2 + 1)) ltac:(cbn; split; auto; apply Rmax_l)). pose proof (Rmax_r a (PI / 2 + 1)). lra.
      - exfalso. pose proof (HB (Rmin b (-1)) ltac:(cbn; split; auto; apply Rmin_l)). pose proof (Rmin_r b (-1)). lra.
      - exfalso. pose proof (HB (-1) ltac:(cbn; auto)). lra. }
    rewrite Et. cbv zeta.
    pose proof (tan_hull_in a b th B1 B3 B4 Hin) as HTan. set (tanTh := hull _ _) in *.
    assert (0 < cos th) as Pc by (apply cos_gt_0; lra). assert (0 < sin th) as Ps by (apply sin_gt_0; lra).
    assert (tan th = y / x) as Htan by (unfold tan; rewrite Ex, Ey; field; lra).
    assert (In x (inter X (idiv E Y tanTh))) as H1.
    { apply In_inter. split; auto. replace x with (y / tan th) by (rewrite Htan; field; lra). apply idiv_in; auto. rewrite Htan.
      apply Rgt_not_eq. apply Rdiv_lt_0_compat; auto. }
    assert (In y (inter Y (imul (ar E) X tanTh))) as H2.
    { apply In_inter. split; auto. replace y with (x * tan th) by (rewrite Htan; field; lra). apply imul_in; auto. }
    assert (In th (inter (Itv (Some a) (Some b)) (iatan E (idiv E Y X)))) as H3.
    { apply In_inter. split; [cbn; lra|]. replace th with (atan (y / x)) by (rewrite <- Htan; apply atan_tan; lra). apply iatan_in; auto. apply idiv_in; auto. lra. }
    destruct (inter X (idiv E Y tanTh)); [contradiction|]. destruct (inter Y (imul (ar E) X tanTh)); [contradiction|].
    destruct (inter (Itv (Some a) (Some b)) (iatan E (idiv E Y X))); [contradiction|]. cbn [is_empty orb]. auto.
  Qed.

  (** the angle modulo 2 pi *)
  Lemma angle_quadrants th : exists k, - PI <= th - IZR k * (2 * PI) <= PI.
  Proof.
    pose proof PI_RGT_0. set (k := up ((th - PI) / (2 * PI))). exists k.
    destruct (archimed ((th - PI) / (2 * PI))) as [H1 H2]. fold k in H1, H2.
    assert (th - PI = (th - PI) / (2 * PI) * (2 * PI)) as E1 by (field; lra).
    set (q := (th - PI) / (2 * PI)) in *. nra.
  Qed.
  Lemma cos_mod th k : cos (th - IZR k * (2 * PI)) = cos th.
  Proof.
    replace (th - IZR k * (2 * PI)) with (th - 2 * IZR k * PI) by ring. destruct (Z_le_dec 0 k).
    - rewrite <- (cos_period (th - 2 * IZR k * PI) (Z.to_nat k)). rewrite INR_IZR_INZ, Z2Nat.id by auto. f_equal. ring.
    - rewrite <- (cos_period th (Z.to_nat (- k))). rewrite INR_IZR_INZ, Z2Nat.id by lia. rewrite opp_IZR. f_equal. ring.
  Qed.
  Lemma sin_mod th k : sin (th - IZR k * (2 * PI)) = sin th.
  Proof.
    replace (th - IZR k * (2 * PI)) with (th - 2 * IZR k * PI) by ring. destruct (Z_le_dec 0 k).
    - rewrite <- (sin_period (th - 2 * IZR k * PI) (Z.to_nat k)). rewrite INR_IZR_INZ, Z2Nat.id by auto. f_equal. ring.
    - rewrite <- (sin_period th (Z.to_nat (- k))). rewrite INR_IZR_INZ, Z2Nat.id by lia. rewrite opp_IZR. f_equal. ring.
  Qed.
  (** one call on a domain of the first quadrant *)
  Lemma catan2_0 X Y TH : wf X -> wf Y -> wf TH -> sub X POS -> sub Y POS -> sub TH i_0_pi2 ->
    catan2 E DBL_MAX 0 X Y TH = Some (if is_empty X || is_empty Y || is_empty TH then EEE else catan2_q1 E DBL_MAX X Y TH).
  Proof.
    intros WX WY WT SX SY ST. unfold catan2. destruct (is_empty X || is_empty Y || is_empty TH); [auto|].
    rewrite !sub_is_subset; auto.
  Qed.
  Lemma neg_NEG X : sub (xneg (inter X NEG)) POS.
  Proof. intros z Hz. apply xneg_in', In_inter in Hz. destruct Hz as [_ Hz]. cbn in *. lra. Qed.
  Lemma neg_0_pi2 T : sub (xneg (Cmod E T (xneg i_0_pi2))) i_0_pi2.
  Proof. intros z Hz. apply xneg_in', Cmod_sub, xneg_in' in Hz. replace z with (- - z) by ring. auto. Qed.
  Lemma catan2_1 X Y TH : catan2 E DBL_MAX 1 X Y TH =
    if is_empty X || is_empty Y || is_empty TH then Some EEE
    else if is_subset X POS && is_subset Y POS && is_subset TH i_0_pi2 then Some (catan2_q1 E DBL_MAX X Y TH)
    else match catan2 E DBL_MAX 0 (inter X POS) (inter Y POS) (Cmod E TH i_0_pi2),
              catan2 E DBL_MAX 0 (inter X POS) (xneg (inter Y NEG)) (xneg (Cmod E TH (xneg i_0_pi2))),
              catan2 E DBL_MAX 0 (xneg (inter X NEG)) (xneg (inter Y NEG)) (inter (iadd (ar E) PI_i (Cmod E TH (xneg i_pi_2pi))) i_0_pi2),
              catan2 E DBL_MAX 0 (xneg (inter X NEG)) (inter Y POS) (inter (isub (ar E) PI_i (Cmod E TH i_pi_2pi)) i_0_pi2) with
        | Some (x1, y1, th1), Some (x2, y2, th2), Some (x3, y3, th3), Some (x4, y4, th4) =>
            Some (hull (hull (hull x1 x2) (xneg x3)) (xneg x4),
                  hull (hull (hull y1 (xneg y2)) (xneg y3)) y4,
                  hull (hull (hull (Cmod_bwd E TH th1) (Cmod_bwd E TH (xneg th2))) (Cmod_bwd E TH (isub (ar E) th3 PI_i))) (Cmod_bwd E TH (isub (ar E) PI_i th4)))
        | _, _, _, _ => None
        end.
  Proof. reflexivity. Qed.
  (** the recursion of [Catan2] stops at the second level *)
  Theorem C26_catan2_depth : forall X Y TH, wf X -> wf Y -> wf TH -> catan2 E DBL_MAX 1 X Y TH <> None.
  Proof.
    intros X Y TH WX WY WT. rewrite catan2_1.
    destruct (_ || _ || _); [discriminate|]. destruct (_ && _ && _); [discriminate|].
    assert (sub (inter X POS) POS) by apply sub_inter_r. assert (sub (inter Y POS) POS) by apply sub_inter_r.
    rewrite !catan2_0; auto using wf_inter, xneg_wf, Cmod_wf, neg_NEG, neg_0_pi2, Cmod_sub, sub_inter_r.
    dq. dq.
    dq. dq. discriminate.
  Qed.
  Lemma q_in x y th r X Y TH : wf X -> wf Y -> wf TH -> sub X POS -> sub Y POS -> sub TH i_0_pi2 ->
    In x X -> In y Y -> In th TH -> 0 < x -> 0 < y -> 0 < r -> x = r * cos th -> y = r * sin th ->
    exists X' Y' TH', catan2 E DBL_MAX 0 X Y TH = Some (X', Y', TH') /\ In x X' /\ In y Y' /\ In th TH'.
  Proof.
    intros WX WY WT SX SY ST HX HY HT Px Py Pr Ex Ey. rewrite catan2_0 by auto.
    assert (is_empty X || is_empty Y || is_empty TH = false) as ->.
    { destruct X; [contradiction|]. destruct Y; [contradiction|]. destruct TH; [contradiction|]. reflexivity. }
    pose proof (q1_in x y th r X Y TH HX HY HT Px Py Pr Ex Ey (proj1 (in_0_pi2 th) (ST _ HT))) as H.
    destruct (catan2_q1 E DBL_MAX X Y TH) as [[X' Y'] TH']. eauto.
  Qed.
  Lemma catan2_some X Y TH : wf X -> wf Y -> wf TH -> sub X POS -> sub Y POS -> sub TH i_0_pi2 ->
    exists X' Y' TH', catan2 E DBL_MAX 0 X Y TH = Some (X', Y', TH').
  Proof. intros. rewrite catan2_0 by auto. dq. eauto. Qed.
  Lemma neg_POS x X : sub X POS -> In x X -> 0 <= x.
  Proof. intros S H. apply S in H. cbn in H. tauto. Qed.

  Theorem C26_catan2_partial : forall x y rho th X Y TH, wf X -> wf Y -> wf TH -> In x X -> In y Y -> In th TH ->
    polar x y rho th -> x <> 0 -> y <> 0 ->
    exists X' Y' TH', catan2 E DBL_MAX 1 X Y TH = Some (X', Y', TH') /\ In x X' /\ In y Y' /\ In th TH'.
  Proof.
    intros x y r th X Y TH WX WY WT HX HY HT (Pr & Ex & Ey) Nx Ny.
    assert (0 < r) as Pr'. { destruct (Req_dec r 0) as [ -> |]; [exfalso; apply Nx; rewrite Ex; ring|lra]. }
    rewrite catan2_1.
    assert (is_empty X || is_empty Y || is_empty TH = false) as ->.
    { destruct X; [contradiction|]. destruct Y; [contradiction|]. destruct TH; [contradiction|]. reflexivity. }
    destruct (is_subset X POS && is_subset Y POS && is_subset TH i_0_pi2) eqn:Q.
    { apply andb_true_iff in Q as [Q1 Q3]. apply andb_true_iff in Q1 as [Q1 Q2].
      apply is_subset_sub in Q1, Q2, Q3. pose proof (Q1 _ HX) as Px. pose proof (Q2 _ HY) as Py. cbn in Px, Py.
      pose proof (q1_in x y th r X Y TH HX HY HT ltac:(lra) ltac:(lra) Pr' Ex Ey (proj1 (in_0_pi2 th) (Q3 _ HT))) as H.
      destruct (catan2_q1 E DBL_MAX X Y TH) as [[X' Y'] TH']. eauto 10. }
    assert (sub (inter X POS) POS) as S1 by apply sub_inter_r. assert (sub (inter Y POS) POS) as S2 by apply sub_inter_r.
    set (T1 := Cmod E TH i_0_pi2). set (T2 := xneg (Cmod E TH (xneg i_0_pi2))).
    set (T3 := inter (iadd (ar E) PI_i (Cmod E TH (xneg i_pi_2pi))) i_0_pi2). set (T4 := inter (isub (ar E) PI_i (Cmod E TH i_pi_2pi)) i_0_pi2).
    assert (wf T1 /\ sub T1 i_0_pi2) as [W1 U1] by (split; [apply Cmod_wf|apply Cmod_sub]).
    assert (wf T2 /\ sub T2 i_0_pi2) as [W2 U2] by (split; [apply xneg_wf, Cmod_wf|apply neg_0_pi2]).
    assert (wf T3 /\ sub T3 i_0_pi2) as [W3 U3] by (split; [apply wf_inter|apply sub_inter_r]).
    assert (wf T4 /\ sub T4 i_0_pi2) as [W4 U4] by (split; [apply wf_inter|apply sub_inter_r]).
    destruct (catan2_some (inter X POS) (inter Y POS) T1) as (x1 & y1 & t1 & E1); auto using wf_inter.
    destruct (catan2_some (inter X POS) (xneg (inter Y NEG)) T2) as (x2 & y2 & t2 & E2); auto using wf_inter, xneg_wf, neg_NEG.
    destruct (catan2_some (xneg (inter X NEG)) (xneg (inter Y NEG)) T3) as (x3 & y3 & t3 & E3); auto using wf_inter, xneg_wf, neg_NEG.
    destruct (catan2_some (xneg (inter X NEG)) (inter Y POS) T4) as (x4 & y4 & t4 & E4); auto using wf_inter, xneg_wf, neg_NEG.
    rewrite E1, E2, E3, E4.
    do 3 eexists. split; [reflexivity|].
    destruct (angle_quadrants th) as [k Hk]. set (a := th - IZR k * (2 * PI)) in *.
    assert (cos a = cos th) as Ca by apply cos_mod. assert (sin a = sin th) as Sa by apply sin_mod.
    assert (th = a + IZR k * (2 * PI)) as Eth by (unfold a; ring).
    pose proof PI_RGT_0 as PI0.
    destruct (Rlt_dec 0 x) as [Px|Px]; destruct (Rlt_dec 0 y) as [Py|Py].
    - (* first quadrant *)
      assert (0 < cos a) as P1 by (apply Rmult_lt_reg_l with r; auto; rewrite Rmult_0_r, Ca, <- Ex; auto).
      assert (0 < sin a) as P2 by (apply Rmult_lt_reg_l with r; auto; rewrite Rmult_0_r, Sa, <- Ey; auto).
      assert (0 <= a <= PI / 2) as Ha.
      { split.
        - destruct (Rle_dec 0 a); auto. exfalso. assert (sin a <= 0) by (replace a with (- - a) by ring; rewrite sin_neg; pose proof (sin_ge_0 (- a)); lra). lra.
        - destruct (Rle_dec a (PI / 2)); auto. exfalso. assert (cos a <= 0) by (apply cos_le_0; lra). lra. }
      destruct (imod_in th a TH i_0_pi2 k HT ltac:(apply in_0_pi2; auto) Eth) as [_ HC].
      destruct (q_in x y a r (inter X POS) (inter Y POS) T1) as (x1' & y1' & t1' & E1' & I1 & I2 & I3); auto using wf_inter;
        try (apply In_inter; split; auto; cbn; lra); try (rewrite ?Ca, ?Sa; auto; fail).
      rewrite E1 in E1'. injection E1' as <- <- <-.
      split; [do 3 apply In_hull_l; auto|]. split; [do 3 apply In_hull_l; auto|]. do 3 apply In_hull_l.
      destruct (imod_in th a TH t1 k HT I3 Eth) as [HC2 _]. exact HC2.
    - (* x > 0, y < 0 *)
      assert (y < 0) as Py' by lra.
      assert (0 < cos a) as P1 by (apply Rmult_lt_reg_l with r; auto; rewrite Rmult_0_r, Ca, <- Ex; auto).
      assert (sin a < 0) as P2 by (apply Rmult_lt_reg_l with r; auto; rewrite Rmult_0_r, Sa, <- Ey; auto).
      assert (- (PI / 2) <= a <= 0) as Ha.
      { split.
        - destruct (Rle_dec (- (PI / 2)) a); auto. exfalso. assert (cos a <= 0) by (rewrite <- cos_neg; apply cos_le_0; lra). lra.
        - destruct (Rle_dec a 0); auto. exfalso. pose proof (sin_ge_0 a). lra. }
      assert (In a (xneg i_0_pi2)) as Hneg. { replace a with (- - a) by ring. apply xneg_in, in_0_pi2. lra. }
      destruct (imod_in th a TH (xneg i_0_pi2) k HT Hneg Eth) as [_ HC].
      destruct (q_in x (- y) (- a) r (inter X POS) (xneg (inter Y NEG)) T2) as (x1' & y1' & t1' & E1' & I1 & I2 & I3); auto using wf_inter, xneg_wf, neg_NEG;
        try (apply In_inter; split; auto; cbn; lra); try (apply xneg_in, In_inter; split; auto; cbn; lra); try (apply xneg_in; auto; fail); try lra.
      { rewrite cos_neg, Ca; auto. } { rewrite sin_neg, Sa. lra. }
      rewrite E2 in E1'. injection E1' as <- <- <-.
      split; [do 2 apply In_hull_l; apply In_hull_r; auto|].
      split; [do 2 apply In_hull_l; apply In_hull_r; replace y with (- - y) by ring; apply xneg_in; auto|].
      do 2 apply In_hull_l. apply In_hull_r.
      assert (In a (xneg t2)) as I4 by (replace a with (- - a) by ring; apply xneg_in; auto).
      destruct (imod_in th a TH (xneg t2) k HT I4 Eth) as [HC2 _]. exact HC2.
    - (* x < 0, y > 0 *)
      assert (x < 0) as Px' by lra.
      assert (cos a < 0) as P1 by (apply Rmult_lt_reg_l with r; auto; rewrite Rmult_0_r, Ca, <- Ex; auto).
      assert (0 < sin a) as P2 by (apply Rmult_lt_reg_l with r; auto; rewrite Rmult_0_r, Sa, <- Ey; auto).
      assert (PI / 2 <= a <= PI) as Ha.
      { split; [|lra]. destruct (Rle_dec (PI / 2) a); auto. exfalso.
        destruct (Rle_dec (- (PI / 2)) a); [pose proof (cos_ge_0 a); lra|].
        assert (sin a <= 0) by (replace a with (- - a) by ring; rewrite sin_neg; pose proof (sin_ge_0 (- a)); lra). lra. }
      destruct (imod_in th a TH i_pi_2pi k HT ltac:(apply in_pi_2pi; auto) Eth) as [_ HC].
      assert (In (PI - a) T4) as HT4. { apply In_inter. split; [apply isub_in; auto; cbn; lra|apply in_0_pi2; lra]. }
      destruct (q_in (- x) y (PI - a) r (xneg (inter X NEG)) (inter Y POS) T4) as (x1' & y1' & t1' & E1' & I1 & I2 & I3); auto using wf_inter, xneg_wf, neg_NEG;
        try (apply In_inter; split; auto; cbn; lra); try (apply xneg_in, In_inter; split; auto; cbn; lra); try lra.
      { rewrite Rtrigo_facts.cos_pi_minus, Ca. lra. } { rewrite Rtrigo_facts.sin_pi_minus, Sa. auto. }
      rewrite E4 in E1'. injection E1' as <- <- <-.
      split; [apply In_hull_r; replace x with (- - x) by ring; apply xneg_in; auto|].
      split; [apply In_hull_r; auto|]. apply In_hull_r.
      assert (In a (isub (ar E) PI_i t4)) as I4 by (replace a with (PI - (PI - a)) by ring; apply isub_in; auto; cbn; lra).
      destruct (imod_in th a TH (isub (ar E) PI_i t4) k HT I4 Eth) as [HC2 _]. exact HC2.
    - (* x < 0, y < 0 *)
      assert (x < 0) as Px' by lra. assert (y < 0) as Py' by lra.
      assert (cos a < 0) as P1 by (apply Rmult_lt_reg_l with r; auto; rewrite Rmult_0_r, Ca, <- Ex; auto).
      assert (sin a < 0) as P2 by (apply Rmult_lt_reg_l with r; auto; rewrite Rmult_0_r, Sa, <- Ey; auto).
      assert (- PI <= a <= - (PI / 2)) as Ha.
      { split; [lra|]. destruct (Rle_dec a (- (PI / 2))); auto. exfalso.
        destruct (Rle_dec a (PI / 2)); [pose proof (cos_ge_0 a); lra|]. pose proof (sin_ge_0 a). lra. }
      assert (In a (xneg i_pi_2pi)) as Hneg. { replace a with (- - a) by ring. apply xneg_in, in_pi_2pi. lra. }
      destruct (imod_in th a TH (xneg i_pi_2pi) k HT Hneg Eth) as [_ HC].
      assert (In (PI + a) T3) as HT3. { apply In_inter. split; [apply iadd_in; auto; cbn; lra|apply in_0_pi2; lra]. }
      destruct (q_in (- x) (- y) (PI + a) r (xneg (inter X NEG)) (xneg (inter Y NEG)) T3) as (x1' & y1' & t1' & E1' & I1 & I2 & I3); auto using wf_inter, xneg_wf, neg_NEG;
        try (apply xneg_in, In_inter; split; auto; cbn; lra); try lra.
      { rewrite Rplus_comm, neg_cos, Ca. lra. } { rewrite Rplus_comm, neg_sin, Sa. lra. }
      rewrite E3 in E1'. injection E1' as <- <- <-.
      split; [apply In_hull_l, In_hull_r; replace x with (- - x) by ring; apply xneg_in; auto|].
      split; [apply In_hull_l, In_hull_r; replace y with (- - y) by ring; apply xneg_in; auto|]. apply In_hull_l, In_hull_r.
      assert (In a (isub (ar E) t3 PI_i)) as I4 by (replace a with (PI + a - PI) by ring; apply isub_in; auto; cbn; lra).
      destruct (imod_in th a TH (isub (ar E) t3 PI_i) k HT I4 Eth) as [HC2 _]. exact HC2.
  Qed.
  Hypothesis ibwd_sqr_wf : forall X Y, wf X -> wf (ibwd_sqr E Y X).
  Lemma polar1_in : forall x y rho th X Y RHO TH, wf X -> wf Y -> wf RHO -> wf TH -> In x X -> In y Y -> In rho RHO -> In th TH ->
    polar x y rho th -> x <> 0 -> y <> 0 ->
    exists X' Y' RHO' TH', polar1 E DBL_MAX X Y RHO TH = Some (X', Y', RHO', TH') /\ In x X' /\ In y Y' /\ In rho RHO' /\ In th TH' /\
      wf X' /\ wf Y' /\ wf RHO'.
  Proof.
    intros x y rho th X Y RHO TH WX WY WR WT HX HY HR HT HP Nx Ny.
    destruct (C26_catan2_partial x y rho th X Y TH WX WY WT HX HY HT HP Nx Ny) as (X1 & Y1 & T1 & EC & H1 & H2 & H3).
    destruct HP as (Pr & Ex & Ey). unfold polar1. rewrite EC.
    set (a3 := iadd (ar E) (isqr E X1) (isqr E Y1)).
    assert (In (rho * rho) a3) as A3.
    { replace (rho * rho) with (x * x + y * y).
      - apply iadd_in; auto; apply isqr_in; auto.
      - rewrite Ex, Ey. pose proof (sin2_cos2 th) as Q. unfold Rsqr in Q. transitivity (rho * rho * (sin th * sin th + cos th * cos th)); [ring|rewrite Q; ring]. }
    set (a4 := inter (isqr E RHO) a3). assert (In (rho * rho) a4) as A4 by (apply In_inter; split; auto; apply isqr_in; auto).
    set (a3' := inter a3 a4). assert (In (rho * rho) a3') as A3' by (apply In_inter; auto).
    assert (rho * rho = y * y + x * x) as Exy.
    { rewrite Ex, Ey. pose proof (sin2_cos2 th) as Q. unfold Rsqr in Q. transitivity (rho * rho * (sin th * sin th + cos th * cos th)); [rewrite Q; ring|ring]. }
    rewrite Exy in A3'.
    destruct (ibwd_add_in E HE (y * y) (x * x) (isqr E Y1) (isqr E X1) a3') as [B2 B1]; auto; try (apply isqr_in; auto; fail).
    destruct (ibwd_add E a3' (isqr E Y1) (isqr E X1)) as [a2' a1']. cbn [fst snd] in B1, B2.
    assert (In rho (ibwd_sqr E a4 RHO)) as R1 by (apply ibwd_sqr_in; auto).
    assert (In x (inter (ibwd_sqr E a1' X1) (imul (ar E) (ibwd_sqr E a4 RHO) (icos E T1)))) as X2.
    { apply In_inter. split; [apply ibwd_sqr_in; auto|]. rewrite Ex. apply imul_in; auto. apply icos_in; auto. }
    assert (In y (inter (ibwd_sqr E a2' Y1) (imul (ar E) (ibwd_sqr E a4 RHO) (isin E T1)))) as Y2.
    { apply In_inter. split; [apply ibwd_sqr_in; auto|]. rewrite Ey. apply imul_in; auto. apply isin_in; auto. }
    pose proof (ibwd_sqr_wf RHO a4 WR) as WR'.
    set (x2 := inter (ibwd_sqr E a1' X1) _) in *. set (y2 := inter (ibwd_sqr E a2' Y1) _) in *. set (r2 := ibwd_sqr E a4 RHO) in *.
    assert (wf x2) by apply wf_inter. assert (wf y2) by apply wf_inter.
    clearbody x2 y2 r2. destruct x2; [contradiction|]. destruct y2; [contradiction|]. destruct r2; [contradiction|]. destruct T1; [contradiction|].
    cbn [is_empty orb]. do 4 eexists. split; [reflexivity|]. auto 10.
  Qed.
  Lemma catan2_th_wf X Y TH X' Y' TH' : wf X -> wf Y -> wf TH -> catan2 E DBL_MAX 1 X Y TH = Some (X', Y', TH') -> wf TH'.
  Proof.
    intros WX WY WT. rewrite catan2_1. destruct (_ || _ || _); [intros H; injection H as <- <- <-; exact I|].
    destruct (_ && _ && _).
    - intros H. injection H as H. unfold catan2_q1 in H. destruct (_ && _); [injection H as <- <- <-; exact I|].
      destruct (_ || _ || _) in H; [injection H as <- <- <-; exact I|]. injection H as <- <- <-. apply wf_inter.
    - destruct (catan2 _ _ _ _ _ _) as [[[? ?] ?]|]; [|discriminate]. destruct (catan2 _ _ _ _ _ _) as [[[? ?] ?]|]; [|discriminate].
      destruct (catan2 _ _ _ _ _ _) as [[[? ?] ?]|]; [|discriminate]. destruct (catan2 _ _ _ _ _ _) as [[[? ?] ?]|]; [|discriminate].
      intros H. injection H as <- <- <-. unfold Cmod_bwd, bwd_imod2. cbn [fst]. repeat apply wf_hull; apply wf_inter.
  Qed.
  Lemma polar1_th_wf X Y RHO TH X' Y' RHO' TH' : wf X -> wf Y -> wf TH -> polar1 E DBL_MAX X Y RHO TH = Some (X', Y', RHO', TH') -> wf TH'.
  Proof.
    intros WX WY WT H. unfold polar1 in H. destruct (catan2 E DBL_MAX 1 X Y TH) as [[[x y] th]|] eqn:Ec; [|discriminate].
    apply catan2_th_wf in Ec; auto. destruct (ibwd_add _ _ _ _). destruct (_ || _ || _ || _) in H; injection H as <- <- <- <-; [exact I|auto].
  Qed.
  (** Points off the axes are kept. *)
  Theorem C26_no_loss_partial : forall x y rho th X Y RHO TH, wf X -> wf Y -> wf RHO -> wf TH ->
    In x X -> In y Y -> In rho RHO -> In th TH -> polar x y rho th -> x <> 0 -> y <> 0 ->
    exists X' Y' RHO' TH', ctc_polar E DBL_MAX X Y RHO TH = Some (X', Y', RHO', TH') /\ In x X' /\ In y Y' /\ In rho RHO' /\ In th TH'.
  Proof.
    intros x y rho th X Y RHO TH WX WY WR WT HX HY HR HT HP Nx Ny. unfold ctc_polar.
    destruct (polar1_in x y rho th X Y RHO TH) as (X1 & Y1 & R1 & T1 & E1 & A1 & A2 & A3 & A4 & W1 & W2 & W3); auto.
    pose proof (polar1_th_wf _ _ _ _ _ _ _ _ WX WY WT E1) as W4. rewrite E1.
    destruct (polar1_in x y rho th X1 Y1 R1 T1) as (X2 & Y2 & R2 & T2 & E2 & B1 & B2 & B3 & B4 & _); auto.
    exists X2, Y2, R2, T2. auto 10.
  Qed.
  (** The origin is lost, whatever the arithmetic: x = y = [0], rho = [0,1], theta = [0]. *)
  Theorem C26_origin : ctc_polar E DBL_MAX (pt 0) (pt 0) (bnd 0 1) (pt 0) = Some (Emp, Emp, Emp, Emp).
  Proof.
    assert (forall RHO, polar1 E DBL_MAX (pt 0) (pt 0) RHO (pt 0) = Some (Emp, Emp, Emp, Emp)) as H1.
    { intros RHO. unfold polar1.
      assert (catan2 E DBL_MAX 1 (pt 0) (pt 0) (pt 0) = Some EEE) as ->.
      { rewrite catan2_1. cbn [is_empty pt orb].
        assert (is_subset (pt 0) POS = true) as P1 by (apply sub_is_subset; [apply wf_pt|]; intros z Hz; apply In_pt in Hz; subst; cbn; lra).
        assert (is_subset (pt 0) i_0_pi2 = true) as P2.
        { apply sub_is_subset; [apply wf_pt|]. intros z Hz. apply In_pt in Hz. subst. apply in_0_pi2. pose proof PI_RGT_0. lra. }
        rewrite P1, P2. cbn [andb]. unfold catan2_q1. rewrite itv_eqb_refl. reflexivity. }
      cbn [EEE]. unfold EEE. destruct (ibwd_add _ _ _ _) as [a2 a1]. rewrite ibwd_sqr_emp by auto. reflexivity. }
    unfold ctc_polar. rewrite H1. unfold polar1. cbn [catan2 is_empty orb]. unfold EEE.
    destruct (ibwd_add _ _ _ _) as [a2 a1]. rewrite ibwd_sqr_emp by auto. reflexivity.
  Qed.
End Polar.

Theorem C26_no_loss_refuted : forall E DBL_MAX, elem_ok E -> exists x y rho th X Y RHO TH,
  wf X /\ wf Y /\ wf RHO /\ wf TH /\ In x X /\ In y Y /\ In rho RHO /\ In th TH /\ polar x y rho th /\
  exists Y' RHO' TH', ctc_polar E DBL_MAX X Y RHO TH = Some (Emp, Y', RHO', TH').
Proof.
  intros E M HE. exists 0, 0, 0, 0, (pt 0), (pt 0), (bnd 0 1), (pt 0).
  repeat (split; [first [apply wf_pt|apply wf_mk|apply In_pt; reflexivity|apply In_bnd; lra]|]).
  split; [unfold polar; rewrite cos_0, sin_0; lra|]. rewrite C26_origin; eauto.
Qed.
(** a point of the third quadrant *)
Example C26_example : exists X' Y' RHO' TH',
  ctc_polar coarse 1 (bnd (-3) 1) (bnd (-2) 5) (bnd 0 4) (bnd 0 (3 * PI / 2)) = Some (X', Y', RHO', TH') /\
  In (- sqrt 2) X' /\ In (- sqrt 2) Y' /\ In 2 RHO' /\ In (5 * (PI / 4)) TH'.
Proof.
  pose proof PI_RGT_0. assert (0 < sqrt 2 < 2) as [Q1 Q2].
  { split; [apply sqrt_lt_R0; lra|]. replace 2 with (sqrt (2 * 2)) at 2 by (apply sqrt_square; lra). apply sqrt_lt_1_alt. lra. }
  assert (2 / sqrt 2 = sqrt 2) as Q3. { rewrite <- (sqrt_sqrt 2) at 1 by lra. field. lra. }
  apply (C26_no_loss_partial coarse 1 coarse_ok); try apply wf_mk; try (apply In_bnd; lra); try lra.
  - intros. cbn. apply wf_hull; apply wf_inter.
  - unfold polar. split; [lra|]. rewrite cos_5PI4, sin_5PI4. split; rewrite <- Q3 at 1; field; lra.
Qed.

Print Assumptions C26_catan2_depth.
Print Assumptions C26_catan2_partial.
Print Assumptions C26_no_loss_partial.
Print Assumptions C26_no_loss_refuted.
