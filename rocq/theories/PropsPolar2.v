(** * C26: the points of the axes *)
From Coq Require Import Reals Lra Lia Bool List Arith.
Import ListNotations.
From Verif Require Import Itv Arith PropsDyn2 Static PropsStatic PropsPolar.
Open Scope R_scope.

(** an interval that contains [v]: it is [v], or it contains something else *)
Lemma only_or v T : In v T -> T = pt v \/ exists w, In w T /\ w <> v.
Proof.
  destruct T as [|[l|] [h|]]; cbn; intros H; try tauto.
  - destruct (Req_EM_T l v) as [->|N]; [|right; exists l; cbn; split; lra]. destruct (Req_EM_T h v) as [->|N]; [left; reflexivity|right; exists h; cbn; split; lra].
  - right. exists (v + 1). cbn. split; lra.
  - right. exists (v - 1). cbn. split; lra.
  - right. exists (v + 1). cbn. split; [auto|lra].
Qed.
Lemma sub_pt_only v T : In v T -> sub T (pt v) -> T = pt v.
Proof. intros H S. destruct (only_or v T H) as [|(w & Hw & N)]; auto. apply S, In_pt in Hw. congruence. Qed.
(** intervals are closed *)
Lemma closed_0 y a T : 0 < y -> (forall t, a <= t -> 0 < t -> In (y / t) T) -> In 0 T.
Proof.
  intros Py H. assert (Q : forall t, a <= t -> 0 < t -> 0 < y / t) by (intros; apply Rdiv_lt_0_compat; auto).
  set (m := Rmax a 1). assert (M1 := Rmax_l a 1). assert (M2 := Rmax_r a 1). fold m in M1, M2.
  assert (H1 := H m M1 ltac:(lra)). assert (Q1 := Q m M1 ltac:(lra)).
  assert (L : forall l, (forall t, a <= t -> 0 < t -> l <= y / t) -> l <= 0).
  { intros l Hl. destruct (Rle_dec l 0); auto. exfalso. set (t := Rmax m (2 * y / l)). assert (T1 := Rmax_l m (2 * y / l)). assert (T2 := Rmax_r m (2 * y / l)). fold t in T1, T2.
    assert (0 < t) by lra. assert (l <= y / t) as HL by (apply Hl; lra). apply (Rmult_le_compat_r t) in HL; [|lra]. replace (y / t * t) with y in HL by (field; lra).
    apply (Rmult_le_compat_r l) in T2; [|lra]. replace (2 * y / l * l) with (2 * y) in T2 by (field; lra). lra. }
  destruct T as [|[l|] [h|]]; cbn in *; try tauto.
  - split; [apply L; intros; apply H; auto|lra].
  - split; auto. apply L; intros; apply H; auto.
  - split; auto. lra.
Qed.
Lemma closed_pi2 s0 T : (forall s, s0 <= s -> In (atan s) T) -> In (PI / 2) T.
Proof.
  intros H. assert (PI0 := PI_RGT_0). assert (H0 := H s0 (Rle_refl _)). assert (B := proj2 (atan_bound s0)).
  assert (L : forall h, (forall s, s0 <= s -> atan s <= h) -> PI / 2 <= h).
  { intros h Hh. destruct (Rle_dec (PI / 2) h); auto. exfalso. set (h' := Rmax h 0). assert (M1 := Rmax_l h 0). assert (M2 := Rmax_r h 0). fold h' in M1, M2.
    assert (h' < PI / 2) by (unfold h'; apply Rmax_lub_lt; lra). set (s := Rmax s0 (tan h' + 1)). assert (S1 := Rmax_l s0 (tan h' + 1)). assert (S2 := Rmax_r s0 (tan h' + 1)). fold s in S1, S2.
    assert (A := Hh s S1). assert (atan (tan h') < atan s) as X by (apply atan_increasing; lra). rewrite atan_tan in X by lra. lra. }
  destruct T as [|[l|] [h|]]; cbn in *; try tauto; split; auto; try lra; apply L; intros; apply H; auto.
Qed.
Lemma some_pos T : In 0 T -> sub T POS -> T <> pt 0 -> exists w, 0 < w /\ In w T.
Proof. intros H S N. destruct (only_or 0 T H) as [|(w & Hw & Nw)]; [congruence|]. exists w. split; auto. apply S in Hw. cbn in Hw. lra. Qed.

Section Axes.
  Variables (E : elem) (DBL_MAX : R).
  Hypothesis HE : elem_ok E.
  (** the first quadrant, axes included *)
  Lemma q1_all x y th r X Y TH : sub X POS -> sub Y POS -> In x X -> In y Y -> In th TH -> 0 < r -> x = r * cos th -> y = r * sin th -> 0 <= th <= PI / 2 ->
    (y = 0 -> sub Y (pt 0) \/ exists w, In w TH /\ 0 < w <= PI / 2) ->
    let '(X', Y', TH') := catan2_q1 E DBL_MAX X Y TH in In x X' /\ In y Y' /\ In th TH'.
  Proof.
    intros SX SY HX HY HT Pr Ex Ey Hth HC0. pose proof PI_RGT_0 as PI0.
    assert (0 <= x) as Px by (apply SX in HX; cbn in HX; tauto). assert (0 <= y) as Py by (apply SY in HY; cbn in HY; tauto).
    destruct (Req_dec x 0) as [X0|X0]; [|destruct (Req_dec y 0) as [Y0|Y0]].
    3: { apply (q1_in E DBL_MAX HE x y th r); auto; lra. }
    - (* the axis of y *)
      assert (cos th = 0) as C0 by (apply (Rmult_eq_reg_l r); lra). assert (th = PI / 2) as T2.
      { destruct (Req_dec th (PI / 2)); auto. assert (0 < cos th) by (apply cos_gt_0; lra). lra. }
      assert (y = r) as Yr by (rewrite Ey, T2, sin_PI2; lra). unfold catan2_q1.
      assert (itv_eqb Y (pt 0) = false) as Zy. { apply itv_eqb_false. intros ->. cbn in HY. lra. } rewrite Zy, andb_false_r.
      destruct (imod_in E HE th th TH i_0_pi2 0 HT ltac:(apply in_0_pi2; lra) ltac:(lra)) as [_ HC].
      assert (forall z, In z (Cmod E TH i_0_pi2) -> 0 <= z <= PI / 2) as HB by (intros z Hz; apply in_0_pi2; eapply Cmod_sub; eauto).
      pose proof (Cmod_wf E TH i_0_pi2) as WC. set (tt := Cmod E TH i_0_pi2) in *.
      assert (exists l, tt = Itv l (Some (PI / 2))) as (l & Et).
      { rewrite T2 in HC. destruct tt as [|l [b|]]; cbn in HC; try tauto.
        - exists l. assert (b <= PI / 2) by (apply HB; destruct l; cbn in *; lra). do 2 f_equal. lra.
        - exfalso. assert (PI / 2 + 1 <= PI / 2); [|lra]. apply (HB (PI / 2 + 1)). destruct l; cbn in *; [lra|auto]. }
      rewrite Et in HC |- *. cbv zeta. replace (Reqb (PI / 2) (PI / 2)) with true by (symmetry; apply Reqb_refl).
      set (tanTh := hull _ _). assert (HTan : forall t, DBL_MAX <= t -> In t tanTh) by (intros t Ht; apply In_hull_r; cbn; auto).
      assert (In x (inter X (idiv E Y tanTh))) as H1.
      { apply In_inter. split; auto. rewrite X0. apply (closed_0 y DBL_MAX); [lra|]. intros t H2 H3. apply idiv_in; auto. lra. }
      assert (In y (if itv_eqb X (pt 0) then Y else inter Y (imul (ar E) X tanTh)) /\ In th (inter (Itv l (Some (PI / 2))) (if itv_eqb X (pt 0) then HALF_PI_i else iatan E (idiv E Y X)))) as (H2 & H3).
      { destruct (itv_eqb X (pt 0)) eqn:Zx.
        - split; auto. apply In_inter. split; auto. rewrite T2. cbn. lra.
        - assert (X <> pt 0) by (intros ->; rewrite itv_eqb_refl in Zx; discriminate). rewrite X0 in HX. destruct (some_pos X HX SX) as (x' & P' & HX'); auto. split.
          + apply In_inter. split; auto. set (t := Rmax (Rmax DBL_MAX 1) (y / x')). assert (M1 := Rmax_l (Rmax DBL_MAX 1) (y / x')). assert (M2 := Rmax_r (Rmax DBL_MAX 1) (y / x')). fold t in M1, M2.
            assert (M3 := Rmax_l DBL_MAX 1). assert (M4 := Rmax_r DBL_MAX 1). replace y with (y / t * t) by (field; lra). apply imul_in; [apply ar_ok; auto| |apply HTan; lra].
            apply (In_convex 0 _ x'); auto. split; [apply Rlt_le, Rdiv_lt_0_compat; lra|]. apply (Rmult_le_compat_r x') in M2; [|lra]. replace (y / x' * x') with y in M2 by (field; lra).
            apply (Rmult_le_reg_r t); [lra|]. replace (y / t * t) with y by (field; lra). lra.
          + apply In_inter. split; auto. rewrite T2. apply (closed_pi2 (y / x')). intros s Hs. apply iatan_in; auto. assert (0 < y / x') by (apply Rdiv_lt_0_compat; lra). assert (0 < s) by lra.
            replace s with (y / (y / s)) by (field; lra). assert (0 < y / s) by (apply Rdiv_lt_0_compat; lra). apply idiv_in; auto; [|lra]. apply (In_convex 0 _ x'); auto. split; [lra|].
            apply (Rmult_le_compat_r x') in Hs; [|lra]. replace (y / x' * x') with y in Hs by (field; lra). apply (Rmult_le_reg_r s); [lra|]. replace (y / s * s) with y by (field; lra). lra. }
      destruct (inter X (idiv E Y tanTh)); [contradiction|]. destruct (if itv_eqb X (pt 0) then Y else _); [contradiction|]. destruct (inter (Itv l _) _); [contradiction|]. cbn [is_empty orb]. auto.
    - (* the axis of x *)
      assert (sin th = 0) as C0 by (apply (Rmult_eq_reg_l r); lra). assert (th = 0) as T2.
      { destruct (Req_dec th 0); auto. assert (0 < sin th) by (apply sin_gt_0; lra). lra. }
      unfold catan2_q1. assert (itv_eqb X (pt 0) = false) as Zx. { apply itv_eqb_false. intros ->. cbn in HX. lra. } rewrite Zx. cbn [andb].
      destruct (imod_in E HE th th TH i_0_pi2 0 HT ltac:(apply in_0_pi2; lra) ltac:(lra)) as [_ HC].
      assert (forall z, In z (Cmod E TH i_0_pi2) -> 0 <= z <= PI / 2) as HB by (intros z Hz; apply in_0_pi2; eapply Cmod_sub; eauto).
      pose proof (Cmod_wf E TH i_0_pi2) as WC.
      assert (HW : forall w, In w TH -> 0 < w <= PI / 2 -> In w (Cmod E TH i_0_pi2)) by (intros w W1 W2; apply (imod_in E HE w w TH i_0_pi2 0); auto; [apply in_0_pi2|]; lra).
      set (tt := Cmod E TH i_0_pi2) in *.
      assert (exists b, tt = Itv (Some 0) (Some b) /\ 0 <= b <= PI / 2) as (b & Et & Hb).
      { rewrite T2 in HC. destruct tt as [|[a|] [b|]]; cbn in HC; try tauto.
        - exists b. assert (0 <= a) by (apply HB; cbn in *; lra). assert (b <= PI / 2) by (apply HB; cbn in *; lra). split; [do 2 f_equal; lra|lra].
        - exfalso. assert (PI / 2 + 1 <= PI / 2); [|lra]. apply (HB (PI / 2 + 1)). cbn in *; split; [lra|auto].
        - exfalso. assert (0 <= -1); [|lra]. apply (HB (-1)). cbn in *; split; [auto|lra].
        - exfalso. assert (0 <= -1); [|lra]. apply (HB (-1)). cbn in *; auto. }
      rewrite Et in HC, HW |- *. cbv zeta. set (tanTh := hull _ _).
      assert (T0 : In 0 tanTh) by (apply In_hull_l; assert (Q : In (tan 0) (itan E (pt 0))) by (apply itan_in; auto; [cbn; lra|rewrite cos_0; lra]); rewrite tan_0 in Q; exact Q).
      assert (In y (inter Y (imul (ar E) X tanTh))) as H2. { apply In_inter. split; auto. replace y with (x * 0) by lra. apply imul_in; auto. apply ar_ok; auto. }
      assert (In th (inter (Itv (Some 0) (Some b)) (iatan E (idiv E Y X)))) as H3.
      { apply In_inter. split; auto. replace th with (atan (y / x)) by (rewrite Y0, T2; unfold Rdiv; rewrite Rmult_0_l; apply atan_0). apply iatan_in; auto. apply idiv_in; auto. }
      assert (In x (if itv_eqb Y (pt 0) then X else inter X (idiv E Y tanTh))) as H1.
      { destruct (itv_eqb Y (pt 0)) eqn:Zy; auto. assert (NY : Y <> pt 0) by (intros ->; rewrite itv_eqb_refl in Zy; discriminate). rewrite Y0 in HY. destruct (some_pos Y HY SY NY) as (y' & P' & HY').
        destruct (HC0 Y0) as [S0|(w & W1 & W2)]; [exfalso; apply NY, sub_pt_only; auto|]. assert (In w (Itv (Some 0) (Some b))) as W3 by auto. cbn in W3.
        assert (exists t, 0 < t /\ In t tanTh) as (t & Pt & Ht).
        { unfold tanTh. destruct (Reqb b (PI / 2)) eqn:Eb.
          - exists (Rmax DBL_MAX 1). assert (M1 := Rmax_l DBL_MAX 1). assert (M2 := Rmax_r DBL_MAX 1). split; [lra|]. apply In_hull_r. cbn. auto.
          - apply Reqb_false in Eb. exists (tan b). split; [apply tan_gt_0; lra|]. apply In_hull_r, itan_in; auto; [cbn; lra|]. apply Rgt_not_eq, cos_gt_0; lra. }
        set (t' := Rmin t (y' / x)). assert (0 < y' / x) by (apply Rdiv_lt_0_compat; lra). assert (0 < t') by (unfold t'; apply Rmin_pos; auto).
        assert (M1 := Rmin_l t (y' / x)). assert (M2 := Rmin_r t (y' / x)). fold t' in M1, M2.
        apply In_inter. split; auto. replace x with (x * t' / t') by (field; lra). apply idiv_in; auto; [|apply (In_convex 0 _ t); auto; lra|lra].
        apply (In_convex 0 _ y'); auto. split; [apply Rmult_le_pos; lra|]. apply (Rmult_le_compat_l x) in M2; [|lra]. replace (x * (y' / x)) with y' in M2 by (field; lra). lra. }
      destruct (if itv_eqb Y (pt 0) then X else _); [contradiction|]. destruct (inter Y (imul (ar E) X tanTh)); [contradiction|]. destruct (inter (Itv _ _) _); [contradiction|]. cbn [is_empty orb]. auto.
  Qed.
  Lemma q_all x y th r X Y TH : wf X -> wf Y -> wf TH -> sub X POS -> sub Y POS -> sub TH i_0_pi2 ->
    In x X -> In y Y -> In th TH -> 0 < r -> x = r * cos th -> y = r * sin th ->
    (y = 0 -> sub Y (pt 0) \/ exists w, In w TH /\ 0 < w <= PI / 2) ->
    exists X' Y' TH', catan2 E DBL_MAX 0 X Y TH = Some (X', Y', TH') /\ In x X' /\ In y Y' /\ In th TH'.
  Proof.
    intros WX WY WT SX SY ST HX HY HT Pr Ex Ey HC. rewrite catan2_0 by auto.
    assert (is_empty X || is_empty Y || is_empty TH = false) as ->.
    { destruct X; [contradiction|]. destruct Y; [contradiction|]. destruct TH; [contradiction|]. reflexivity. }
    pose proof (q1_all x y th r X Y TH SX SY HX HY HT Pr Ex Ey (proj1 (in_0_pi2 th) (ST _ HT)) HC) as H.
    destruct (catan2_q1 E DBL_MAX X Y TH) as [[X' Y'] TH']. eauto.
  Qed.
  Lemma xneg_sub0 T : sub T (pt 0) -> sub (xneg (inter T NEG)) (pt 0).
  Proof. intros S v Hv. apply xneg_in', In_inter in Hv. destruct Hv as (Hv & _). apply S, In_pt in Hv. apply In_pt. lra. Qed.
  Lemma inter_sub0 T K : sub T (pt 0) -> sub (inter T K) (pt 0).
  Proof. intros S v Hv. apply In_inter in Hv. apply S. tauto. Qed.
  (** an instant of the first axis: the angle is a multiple of pi *)
  Lemma sin_zero a : - PI <= a <= PI -> sin a = 0 -> a = 0 \/ a = PI \/ a = - PI.
  Proof.
    intros Ha S. assert (PI0 := PI_RGT_0). destruct (Req_dec a 0); auto. destruct (Req_dec a PI); auto. destruct (Req_dec a (- PI)); auto. exfalso.
    destruct (Rlt_dec 0 a); [assert (0 < sin a) by (apply sin_gt_0; lra); lra|]. assert (0 < sin (- a)) as Q by (apply sin_gt_0; lra). rewrite sin_neg in Q. lra.
  Qed.
  Theorem C26_catan2_axes_partial : forall x y rho th X Y TH, wf X -> wf Y -> wf TH -> In x X -> In y Y -> In th TH ->
    polar x y rho th -> 0 < rho -> (y = 0 -> sub Y (pt 0) \/ exists w, In w TH /\ w <> th) ->
    exists X' Y' TH', catan2 E DBL_MAX 1 X Y TH = Some (X', Y', TH') /\ In x X' /\ In y Y' /\ In th TH'.
  Proof.
    intros x y r th X Y TH WX WY WT HX HY HT (_ & Ex & Ey) Pr HC. pose proof PI_RGT_0 as PI0.
    rewrite catan2_1.
    assert (is_empty X || is_empty Y || is_empty TH = false) as ->.
    { destruct X; [contradiction|]. destruct Y; [contradiction|]. destruct TH; [contradiction|]. reflexivity. }
    destruct (is_subset X POS && is_subset Y POS && is_subset TH i_0_pi2) eqn:Q.
    { apply andb_true_iff in Q as [Q1 Q3]. apply andb_true_iff in Q1 as [Q1 Q2]. apply is_subset_sub in Q1, Q2, Q3.
      assert (Ht := proj1 (in_0_pi2 th) (Q3 _ HT)).
      pose proof (q1_all x y th r X Y TH Q1 Q2 HX HY HT Pr Ex Ey Ht) as H.
      destruct (catan2_q1 E DBL_MAX X Y TH) as [[X' Y'] TH']. do 3 eexists. split; [reflexivity|]. apply H. intros Y0. destruct (HC Y0) as [?|(w & W1 & W2)]; auto. right. exists w. split; auto.
      assert (Hw := proj1 (in_0_pi2 w) (Q3 _ W1)). assert (sin th = 0) as S0 by (apply (Rmult_eq_reg_l r); lra). destruct (sin_zero th ltac:(lra) S0) as [->|[->| ->]]; lra. }
    assert (sub (inter X POS) POS) as S1 by apply sub_inter_r. assert (sub (inter Y POS) POS) as S2 by apply sub_inter_r.
    set (T1 := Cmod E TH i_0_pi2). set (T2 := xneg (Cmod E TH (xneg i_0_pi2))).
    set (T3 := inter (iadd (ar E) PI_i (Cmod E TH (xneg i_pi_2pi))) i_0_pi2). set (T4 := inter (isub (ar E) PI_i (Cmod E TH i_pi_2pi)) i_0_pi2).
    assert (wf T1 /\ sub T1 i_0_pi2) as [W1 U1] by (split; [apply Cmod_wf|apply Cmod_sub]).
    assert (wf T2 /\ sub T2 i_0_pi2) as [W2 U2] by (split; [apply xneg_wf, Cmod_wf|apply neg_0_pi2]).
    assert (wf T3 /\ sub T3 i_0_pi2) as [W3 U3] by (split; [apply wf_inter|apply sub_inter_r]).
    assert (wf T4 /\ sub T4 i_0_pi2) as [W4 U4] by (split; [apply wf_inter|apply sub_inter_r]).
    destruct (catan2_some E DBL_MAX (inter X POS) (inter Y POS) T1) as (x1 & y1 & t1 & E1); auto using wf_inter.
    destruct (catan2_some E DBL_MAX (inter X POS) (xneg (inter Y NEG)) T2) as (x2 & y2 & t2 & E2); auto using wf_inter, xneg_wf, neg_NEG.
    destruct (catan2_some E DBL_MAX (xneg (inter X NEG)) (xneg (inter Y NEG)) T3) as (x3 & y3 & t3 & E3); auto using wf_inter, xneg_wf, neg_NEG.
    destruct (catan2_some E DBL_MAX (xneg (inter X NEG)) (inter Y POS) T4) as (x4 & y4 & t4 & E4); auto using wf_inter, xneg_wf, neg_NEG.
    rewrite E1, E2, E3, E4. do 3 eexists. split; [reflexivity|].
    set (X' := hull (hull (hull x1 x2) _) _). set (Y' := hull (hull (hull y1 _) _) _). set (TH' := hull (hull (hull (Cmod_bwd _ _ _) _) _) _).
    assert (CS : forall a k, th = a + IZR k * (2 * PI) -> cos a = cos th /\ sin a = sin th).
    { intros a k Ea. replace a with (th - IZR k * (2 * PI)) by (rewrite Ea; ring). split; [apply cos_mod|apply sin_mod]. }
    set (near := fun (k : Z) (P : R -> Prop) => y = 0 -> sub Y (pt 0) \/ exists w, In (w + IZR k * (2 * PI)) TH /\ P w).
    assert (K1 : forall a k, th = a + IZR k * (2 * PI) -> 0 <= x -> 0 <= y -> 0 <= a <= PI / 2 -> near k (fun w => 0 < w <= PI / 2) -> In x X' /\ In y Y' /\ In th TH').
    { intros a k Eth Px Py Ha HN. destruct (CS a k Eth) as (Ca & Sa).
      destruct (imod_in E HE th a TH i_0_pi2 k HT ltac:(apply in_0_pi2; auto) Eth) as [_ HM].
      destruct (q_all x y a r (inter X POS) (inter Y POS) T1) as (x1' & y1' & t1' & E1' & I1 & I2 & I3); auto using wf_inter;
        try (apply In_inter; split; auto; cbn; lra); try (rewrite ?Ca, ?Sa; auto; fail).
      { intros Y0. destruct (HN Y0) as [S0|(w & Hw & Pw)]; [left; apply inter_sub0; auto|]. right. exists w. split; auto. apply (imod_in E HE (w + IZR k * (2 * PI)) w TH i_0_pi2 k); auto. apply in_0_pi2; lra. }
      rewrite E1 in E1'. injection E1' as <- <- <-.
      split; [do 3 apply In_hull_l; auto|]. split; [do 3 apply In_hull_l; auto|]. do 3 apply In_hull_l.
      destruct (imod_in E HE th a TH t1 k HT I3 Eth) as [HC2 _]. exact HC2. }
    assert (K2 : forall a k, th = a + IZR k * (2 * PI) -> 0 <= x -> y <= 0 -> - (PI / 2) <= a <= 0 -> near k (fun w => - (PI / 2) <= w < 0) -> In x X' /\ In y Y' /\ In th TH').
    { intros a k Eth Px Py Ha HN. destruct (CS a k Eth) as (Ca & Sa).
      assert (NG : forall w, - (PI / 2) <= w <= 0 -> In w (xneg i_0_pi2)) by (intros w Hw; replace w with (- - w) by ring; apply xneg_in, in_0_pi2; lra).
      destruct (imod_in E HE th a TH (xneg i_0_pi2) k HT (NG a Ha) Eth) as [_ HM].
      destruct (q_all x (- y) (- a) r (inter X POS) (xneg (inter Y NEG)) T2) as (x1' & y1' & t1' & E1' & I1 & I2 & I3); auto using wf_inter, xneg_wf, neg_NEG;
        try (apply In_inter; split; auto; cbn; lra); try (apply xneg_in, In_inter; split; auto; cbn; lra); try (apply xneg_in; auto; fail); try lra.
      { rewrite cos_neg, Ca; auto. } { rewrite sin_neg, Sa. lra. }
      { intros Y0. destruct (HN ltac:(lra)) as [S0|(w & Hw & Pw)]; [left; apply xneg_sub0; auto|]. right. exists (- w). split; [|lra]. apply xneg_in. apply (imod_in E HE (w + IZR k * (2 * PI)) w TH (xneg i_0_pi2) k); auto. apply NG; lra. }
      rewrite E2 in E1'. injection E1' as <- <- <-.
      split; [do 2 apply In_hull_l; apply In_hull_r; auto|].
      split; [do 2 apply In_hull_l; apply In_hull_r; replace y with (- - y) by ring; apply xneg_in; auto|].
      do 2 apply In_hull_l. apply In_hull_r.
      assert (In a (xneg t2)) as I4 by (replace a with (- - a) by ring; apply xneg_in; auto).
      destruct (imod_in E HE th a TH (xneg t2) k HT I4 Eth) as [HC2 _]. exact HC2. }
    assert (K4 : forall a k, th = a + IZR k * (2 * PI) -> x <= 0 -> 0 <= y -> PI / 2 <= a <= PI -> near k (fun w => PI / 2 <= w < PI) -> In x X' /\ In y Y' /\ In th TH').
    { intros a k Eth Px Py Ha HN. destruct (CS a k Eth) as (Ca & Sa).
      assert (NG : forall w, PI / 2 <= w <= PI -> In (w + IZR k * (2 * PI)) TH -> In (PI - w) T4).
      { intros w Hw Iw. apply In_inter. split; [apply isub_in; [apply ar_ok; auto|cbn; lra|]|apply in_0_pi2; lra]. apply (imod_in E HE (w + IZR k * (2 * PI)) w TH i_pi_2pi k); auto. apply in_pi_2pi; lra. }
      destruct (q_all (- x) y (PI - a) r (xneg (inter X NEG)) (inter Y POS) T4) as (x1' & y1' & t1' & E1' & I1 & I2 & I3); auto using wf_inter, xneg_wf, neg_NEG;
        try (apply In_inter; split; auto; cbn; lra); try (apply xneg_in, In_inter; split; auto; cbn; lra); try lra.
      { apply NG; auto. rewrite <- Eth. auto. }
      { rewrite Rtrigo_facts.cos_pi_minus, Ca. lra. } { rewrite Rtrigo_facts.sin_pi_minus, Sa. auto. }
      { intros Y0. destruct (HN Y0) as [S0|(w & Hw & Pw)]; [left; apply inter_sub0; auto|]. right. exists (PI - w). split; [apply NG; auto|]; lra. }
      rewrite E4 in E1'. injection E1' as <- <- <-.
      split; [apply In_hull_r; replace x with (- - x) by ring; apply xneg_in; auto|].
      split; [apply In_hull_r; auto|]. apply In_hull_r.
      assert (In a (isub (ar E) PI_i t4)) as I4 by (replace a with (PI - (PI - a)) by ring; apply isub_in; auto; [apply ar_ok; auto|cbn; lra]).
      destruct (imod_in E HE th a TH (isub (ar E) PI_i t4) k HT I4 Eth) as [HC2 _]. exact HC2. }
    assert (K3 : forall a k, th = a + IZR k * (2 * PI) -> x <= 0 -> y <= 0 -> - PI <= a <= - (PI / 2) -> near k (fun w => - PI < w <= - (PI / 2)) -> In x X' /\ In y Y' /\ In th TH').
    { intros a k Eth Px Py Ha HN. destruct (CS a k Eth) as (Ca & Sa).
      assert (NG : forall w, - PI <= w <= - (PI / 2) -> In (w + IZR k * (2 * PI)) TH -> In (PI + w) T3).
      { intros w Hw Iw. apply In_inter. split; [apply iadd_in; [apply ar_ok; auto|cbn; lra|]|apply in_0_pi2; lra]. apply (imod_in E HE (w + IZR k * (2 * PI)) w TH (xneg i_pi_2pi) k); auto.
        replace w with (- - w) by ring. apply xneg_in, in_pi_2pi; lra. }
      destruct (q_all (- x) (- y) (PI + a) r (xneg (inter X NEG)) (xneg (inter Y NEG)) T3) as (x1' & y1' & t1' & E1' & I1 & I2 & I3); auto using wf_inter, xneg_wf, neg_NEG;
        try (apply xneg_in, In_inter; split; auto; cbn; lra); try lra.
      { apply NG; auto. rewrite <- Eth. auto. }
      { rewrite Rplus_comm, neg_cos, Ca. lra. } { rewrite Rplus_comm, neg_sin, Sa. lra. }
      { intros Y0. destruct (HN ltac:(lra)) as [S0|(w & Hw & Pw)]; [left; apply xneg_sub0; auto|]. right. exists (PI + w). split; [apply NG; auto|]; lra. }
      rewrite E3 in E1'. injection E1' as <- <- <-.
      split; [apply In_hull_l, In_hull_r; replace x with (- - x) by ring; apply xneg_in; auto|].
      split; [apply In_hull_l, In_hull_r; replace y with (- - y) by ring; apply xneg_in; auto|]. apply In_hull_l, In_hull_r.
      assert (In a (isub (ar E) t3 PI_i)) as I4 by (replace a with (PI + a - PI) by ring; apply isub_in; auto; [apply ar_ok; auto|cbn; lra]).
      destruct (imod_in E HE th a TH (isub (ar E) t3 PI_i) k HT I4 Eth) as [HC2 _]. exact HC2. }
    clearbody X' Y' TH'. clear E1 E2 E3 E4 W1 W2 W3 W4 U1 U2 U3 U4.
    destruct (angle_quadrants th) as [k Hk]. set (a := th - IZR k * (2 * PI)) in *. assert (th = a + IZR k * (2 * PI)) as Eth by (unfold a; ring). clearbody a.
    destruct (CS a k Eth) as (Ca & Sa).
    destruct (Req_dec y 0) as [Y0|Y0].
    - (* the axis of x *)
      assert (sin a = 0) as S0 by (rewrite Sa; apply (Rmult_eq_reg_l r); lra).
      assert (OW : sub Y (pt 0) \/ (exists d, 0 < d <= PI / 2 /\ In (th + d) TH) \/ (exists d, 0 < d <= PI / 2 /\ In (th - d) TH)).
      { destruct (HC Y0) as [?|(w & Hw & Nw)]; auto. right. destruct (Rlt_dec th w).
        - left. exists (Rmin (w - th) (PI / 2)). assert (M1 := Rmin_l (w - th) (PI / 2)). assert (M2 := Rmin_r (w - th) (PI / 2)). assert (0 < Rmin (w - th) (PI / 2)) by (apply Rmin_pos; lra).
          split; [lra|]. apply (In_convex th _ w); auto. lra.
        - right. exists (Rmin (th - w) (PI / 2)). assert (M1 := Rmin_l (th - w) (PI / 2)). assert (M2 := Rmin_r (th - w) (PI / 2)). assert (0 < Rmin (th - w) (PI / 2)) by (apply Rmin_pos; lra).
          split; [lra|]. apply (In_convex w _ th); auto. lra. }
      destruct (Req_dec a 0) as [A0|A0].
      + assert (x = r) as Xr by (rewrite Ex, <- Ca, A0, cos_0; lra).
        destruct OW as [S|[(d & Hd & Id)|(d & Hd & Id)]].
        * apply (K1 a k); try lra. intros _; auto.
        * apply (K1 a k); try lra. intros _. right. exists d. split; [|lra]. replace (d + IZR k * (2 * PI)) with (th + d) by lra. auto.
        * apply (K2 a k); try lra. intros _. right. exists (- d). split; [|lra]. replace (- d + IZR k * (2 * PI)) with (th - d) by lra. auto.
      + assert (exists k', th = PI + IZR k' * (2 * PI)) as (k' & Ek).
        { destruct (sin_zero a Hk S0) as [?|[->| ->]]; [congruence|eauto|]. exists (k - 1)%Z. rewrite minus_IZR. lra. }
        assert (x = - r) as Xr by (rewrite Ex; destruct (CS PI k' Ek) as (<- & _); rewrite cos_PI; lra).
        destruct OW as [S|[(d & Hd & Id)|(d & Hd & Id)]].
        * apply (K4 PI k'); try lra. intros _; auto.
        * apply (K3 (- PI) (k' + 1)%Z); try lra; [rewrite plus_IZR; lra|]. intros _. right. exists (- PI + d). split; [|lra]. replace (- PI + d + IZR (k' + 1) * (2 * PI)) with (th + d) by (rewrite plus_IZR; lra). auto.
        * apply (K4 PI k'); try lra. intros _. right. exists (PI - d). split; [|lra]. replace (PI - d + IZR k' * (2 * PI)) with (th - d) by lra. auto.
    - assert (forall K P, near K P) as HN by (intros K P ?; congruence).
      assert (r * cos a = x) as Xa by (rewrite Ca; auto). assert (r * sin a = y) as Ya by (rewrite Sa; auto).
      assert (SG : 0 < y -> 0 < a < PI).
      { intros Py. assert (0 < sin a) by (apply (Rmult_lt_reg_l r); lra). destruct (Rlt_dec 0 a); [split; auto; destruct (Req_dec a PI) as [->|]; [rewrite sin_PI in *; lra|lra]|].
        exfalso. assert (0 <= sin (- a)) as Q0 by (apply sin_ge_0; lra). rewrite sin_neg in Q0. lra. }
      assert (SG' : y < 0 -> - PI < a < 0).
      { intros Py. assert (sin a < 0) by (apply (Rmult_lt_reg_l r); lra). destruct (Rlt_dec a 0); [split; auto; destruct (Req_dec a (- PI)) as [->|]; [rewrite sin_neg, sin_PI in *; lra|lra]|].
        exfalso. assert (0 <= sin a) as Q0 by (apply sin_ge_0; lra). lra. }
      destruct (Rlt_dec 0 y) as [Py|Py]; [specialize (SG Py)|specialize (SG' ltac:(lra))]; destruct (Rle_dec 0 x) as [Px|Px].
      + apply (K1 a k); try lra; auto. split; [lra|]. destruct (Rle_dec a (PI / 2)); auto. exfalso. assert (cos a < 0) by (apply cos_lt_0; lra). nra.
      + apply (K4 a k); try lra; auto. split; [|lra]. destruct (Rle_dec (PI / 2) a); auto. exfalso. assert (0 < cos a) by (apply cos_gt_0; lra). nra.
      + apply (K2 a k); try lra; auto. split; [|lra]. destruct (Rle_dec (- (PI / 2)) a); auto. exfalso. assert (cos (- a) < 0) as Q0 by (apply cos_lt_0; lra). rewrite cos_neg in Q0. nra.
      + apply (K3 a k); try lra; auto. split; [lra|]. destruct (Rle_dec a (- (PI / 2))); auto. exfalso. assert (0 < cos a) by (apply cos_gt_0; lra). nra.
  Qed.
  Hypothesis ibwd_sqr_wf : forall X Y, wf X -> wf (ibwd_sqr E Y X).
  (** the sine of a multiple of pi and the product by zero are exact *)
  Hypothesis isin_zero : forall k, sub (isin E (pt (IZR k * PI))) (pt 0).
  Hypothesis imul_zero : forall X, sub (imul (ar E) X (pt 0)) (pt 0).
  Lemma sin_zero_mult th : sin th = 0 -> exists k, th = IZR k * PI.
  Proof. intros S. destruct (sin_eq_0_0 th S) as (k & K). exists k. exact K. Qed.
  Lemma polar1_all : forall x y rho th X Y RHO TH, wf X -> wf Y -> wf RHO -> wf TH -> In x X -> In y Y -> In rho RHO -> In th TH ->
    polar x y rho th -> 0 < rho -> (y = 0 -> sub Y (pt 0) \/ exists w, In w TH /\ w <> th) ->
    exists X' Y' RHO' TH', polar1 E DBL_MAX X Y RHO TH = Some (X', Y', RHO', TH') /\ In x X' /\ In y Y' /\ In rho RHO' /\ In th TH' /\
      wf X' /\ wf Y' /\ wf RHO' /\ (y = 0 -> sub Y' (pt 0) \/ exists w, In w TH' /\ w <> th).
  Proof.
    intros x y rho th X Y RHO TH WX WY WR WT HX HY HR HT HP P0 HC.
    destruct (C26_catan2_axes_partial x y rho th X Y TH WX WY WT HX HY HT HP P0 HC) as (X1 & Y1 & T1 & EC & H1 & H2 & H3).
    destruct HP as (Pr & Ex & Ey). unfold polar1. rewrite EC.
    set (a3 := iadd (ar E) (isqr E X1) (isqr E Y1)).
    assert (rho * rho = y * y + x * x) as Exy.
    { rewrite Ex, Ey. pose proof (sin2_cos2 th) as Q. unfold Rsqr in Q. transitivity (rho * rho * (sin th * sin th + cos th * cos th)); [rewrite Q; ring|ring]. }
    assert (In (rho * rho) a3) as A3.
    { replace (rho * rho) with (x * x + y * y) by lra. apply iadd_in; [apply ar_ok; auto| |]; apply isqr_in; auto. }
    set (a4 := inter (isqr E RHO) a3). assert (In (rho * rho) a4) as A4 by (apply In_inter; split; auto; apply isqr_in; auto).
    set (a3' := inter a3 a4). assert (In (rho * rho) a3') as A3' by (apply In_inter; auto).
    rewrite Exy in A3'.
    destruct (ibwd_add_in E HE (y * y) (x * x) (isqr E Y1) (isqr E X1) a3') as [B2 B1]; auto; try (apply isqr_in; auto; fail).
    destruct (ibwd_add E a3' (isqr E Y1) (isqr E X1)) as [a2' a1']. cbn [fst snd] in B1, B2.
    assert (In rho (ibwd_sqr E a4 RHO)) as R1 by (apply ibwd_sqr_in; auto).
    assert (In x (inter (ibwd_sqr E a1' X1) (imul (ar E) (ibwd_sqr E a4 RHO) (icos E T1)))) as X2.
    { apply In_inter. split; [apply ibwd_sqr_in; auto|]. rewrite Ex. apply imul_in; [apply ar_ok; auto|auto|]. apply icos_in; auto. }
    assert (In y (inter (ibwd_sqr E a2' Y1) (imul (ar E) (ibwd_sqr E a4 RHO) (isin E T1)))) as Y2.
    { apply In_inter. split; [apply ibwd_sqr_in; auto|]. rewrite Ey. apply imul_in; [apply ar_ok; auto|auto|]. apply isin_in; auto. }
    pose proof (ibwd_sqr_wf RHO a4 WR) as WR'.
    assert (y = 0 -> sub (inter (ibwd_sqr E a2' Y1) (imul (ar E) (ibwd_sqr E a4 RHO) (isin E T1))) (pt 0) \/ exists w, In w T1 /\ w <> th) as HC'.
    { intros Y0. destruct (only_or th T1 H3) as [ET|]; auto. left. assert (sin th = 0) as S0 by (apply (Rmult_eq_reg_l rho); lra). destruct (sin_zero_mult th S0) as (k & K).
      assert (isin E T1 = pt 0) as -> by (apply sub_pt_only; [rewrite <- S0; apply isin_in; auto|rewrite ET, K; apply isin_zero]).
      intros v Hv. apply In_inter in Hv. apply (imul_zero (ibwd_sqr E a4 RHO)). tauto. }
    set (x2 := inter (ibwd_sqr E a1' X1) _) in *. set (y2 := inter (ibwd_sqr E a2' Y1) _) in *. set (r2 := ibwd_sqr E a4 RHO) in *.
    assert (wf x2) by apply wf_inter. assert (wf y2) by apply wf_inter.
    clearbody x2 y2 r2. destruct x2; [contradiction|]. destruct y2; [contradiction|]. destruct r2; [contradiction|]. destruct T1; [contradiction|].
    cbn [is_empty orb]. do 4 eexists. split; [reflexivity|]. auto 12.
  Qed.
  (** All the points but the origin are kept, if a point of the axis of x comes with another value in the domain of the
      angle, or with the domain [0] for y. *)
  Theorem C26_axes_partial : forall x y rho th X Y RHO TH, wf X -> wf Y -> wf RHO -> wf TH ->
    In x X -> In y Y -> In rho RHO -> In th TH -> polar x y rho th -> 0 < rho -> (y = 0 -> sub Y (pt 0) \/ exists w, In w TH /\ w <> th) ->
    exists X' Y' RHO' TH', ctc_polar E DBL_MAX X Y RHO TH = Some (X', Y', RHO', TH') /\ In x X' /\ In y Y' /\ In rho RHO' /\ In th TH'.
  Proof.
    intros x y rho th X Y RHO TH WX WY WR WT HX HY HR HT HP P0 HC. unfold ctc_polar.
    destruct (polar1_all x y rho th X Y RHO TH) as (X1 & Y1 & R1 & T1 & E1 & A1 & A2 & A3 & A4 & W1 & W2 & W3 & HC1); auto.
    pose proof (polar1_th_wf E DBL_MAX _ _ _ _ _ _ _ _ WX WY WT E1) as W4. rewrite E1.
    destruct (polar1_all x y rho th X1 Y1 R1 T1) as (X2 & Y2 & R2 & T2 & E2 & B1 & B2 & B3 & B4 & _); auto.
    exists X2, Y2, R2, T2. auto 10.
  Qed.
End Axes.
