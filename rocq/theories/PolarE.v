(** * An instance of the elementary functions of IBEX, exact at points and near zero *)
From Coq Require Import Reals Lra Lia Bool List Arith.
Import ListNotations.
From Verif Require Import Itv Arith Tube TubeSpec TubeFacts TubeOps Concrete PropsDyn2 Static PropsStatic Geometry PropsGeom PropsPolar PropsPolar2.
Open Scope R_scope.

(** the product by zero is zero, even for unbounded intervals *)
Definition xmul0 (X Y : itv) : itv := if itv_eqb Y (pt 0) then nonempty (pt 0) X else xmul X Y.
Definition arith0 : arith := {| iadd := xadd; isub := xsub; imul := xmul0; ineg := xneg |}.
Lemma arith0_ok : arith_ok arith0.
Proof.
  constructor; try apply exact_ok; cbn; unfold xmul0.
  - intros x y X Y HX HY. destruct (itv_eqb Y (pt 0)) eqn:E; [|apply (imul_in exact exact_ok); auto].
    apply itv_eqb_true in E. subst. apply In_pt in HY. subst. rewrite (nonempty_in x) by auto. apply In_pt. ring.
  - intros X Y WX WY. destruct (itv_eqb Y (pt 0)); [|apply (imul_wf exact exact_ok); auto]. destruct X; cbn; auto. lra.
  - intros X Y HX. destruct (itv_eqb Y (pt 0)) eqn:E; [|apply (imul_emp exact exact_ok); auto]. apply itv_eqb_true in E. destruct HX as [->| ->]; [reflexivity|discriminate].
Qed.
(** [f] at points, [r] elsewhere *)
Definition at_pt (f : R -> R) (r X : itv) : itv :=
  match X with Emp => Emp | Itv (Some a) (Some b) => if Reqb a b then pt (f a) else r | _ => r end.
Lemma at_pt_in f r x X : (forall v, In (f v) r) -> In x X -> In (f x) (at_pt f r X).
Proof. intros Hr HX. destruct X as [|[a|] [b|]]; cbn in *; auto; try tauto. destruct (Reqb a b) eqn:E; auto. apply Reqb_true in E. apply In_pt. f_equal. lra. Qed.
Lemma at_pt_pt f r v : at_pt f r (pt v) = pt (f v).
Proof. cbn. rewrite Reqb_refl. reflexivity. Qed.
(** the integers of an interval: exact when it is inside ]-1,1[ *)
Definition int0 (X : itv) : itv :=
  match X with Itv (Some a) (Some b) => if Rltb (-1) a && Rltb b 1 then inter X (pt 0) else X | _ => X end.
Lemma int0_in k X : In (IZR k) X -> In (IZR k) (int0 X).
Proof.
  intros H. destruct X as [|[a|] [b|]]; auto. cbn [int0]. destruct (_ && _) eqn:E; auto. apply andb_true_iff in E as [E1 E2]. apply Rltb_true in E1, E2.
  apply In_inter. split; auto. apply In_pt. cbn in H. assert (-1 < k < 1)%Z as K by (split; apply lt_IZR; lra). assert (k = 0%Z) as -> by lia. reflexivity.
Qed.
Definition ibexE : elem := {|
  ar := arith0; idiv := xdiv; isqr := xsqr; isqrt := xsqrt;
  ibwd_sqr := ibwd_sqr coarse; ibwd_add := ibwd_add coarse;
  icos := at_pt cos (bnd (-1) 1); isin := at_pt sin (bnd (-1) 1); itan := at_pt tan ALL; iatan := at_pt atan ALL; iint := int0 |}.
Lemma ibexE_ok : elem_ok ibexE.
Proof.
  constructor; try apply coarse_ok; cbn [ar idiv isqr isqrt ibwd_sqr ibwd_add icos isin itan iatan iint ibexE].
  - exact arith0_ok.
  - apply (g_div_in gexact gexact_ok).
  - apply (g_sqr_in gexact gexact_ok).
  - intros x X H. apply at_pt_in; auto. intros v. apply In_bnd. apply COS_bound.
  - intros x X H. apply at_pt_in; auto. intros v. apply In_bnd. apply SIN_bound.
  - intros x X H _. apply at_pt_in; auto. intros v. apply In_ALL.
  - intros x X H. apply at_pt_in; auto. intros v. apply In_ALL.
  - exact int0_in.
Qed.
Lemma ibexE_sqr_wf X Y : wf X -> wf (ibwd_sqr ibexE Y X).
Proof. intros _. cbn. apply wf_hull; apply wf_inter. Qed.
Lemma ibexE_sin k : sub (isin ibexE (pt (IZR k * PI))) (pt 0).
Proof. cbn [isin ibexE]. rewrite at_pt_pt. rewrite (sin_eq_0_1 (IZR k * PI)) by eauto. apply sub_refl. Qed.
Lemma ibexE_mul X : sub (imul (ar ibexE) X (pt 0)) (pt 0).
Proof. cbn [imul ar ibexE arith0]. unfold xmul0. rewrite itv_eqb_refl. destruct X; [intros v []|apply sub_refl]. Qed.

(** the remainders, for neighbouring domains *)
Lemma inter_I a b c d : Rmax a c <= Rmin b d -> inter (I2 a b) (I2 c d) = I2 (Rmax a c) (Rmin b d).
Proof. intros H. unfold inter, I2. cbn. rewrite (Rle_dec_t _ _) by auto. reflexivity. Qed.
Lemma inter_I_emp a b c d : Rmin b d < Rmax a c -> inter (I2 a b) (I2 c d) = Emp.
Proof. intros H. unfold inter, I2. cbn. rewrite (Rle_dec_f _ _) by auto. reflexivity. Qed.
Lemma quot_I a b : xdiv (I2 a b) (pt (2 * PI)) = I2 (Rmin (a / (2 * PI)) (b / (2 * PI))) (Rmax (a / (2 * PI)) (b / (2 * PI))).
Proof.
  pose proof PI_RGT_0. unfold xdiv, I2, pt. rewrite (Reqb_f (2 * PI) 0) by lra. cbn [andb]. rewrite (Rltb_t 0 (2 * PI)) by lra. cbn [orb]. unfold min4, max4.
  rewrite (Rmin_left (a / (2 * PI)) (a / (2 * PI))), (Rmin_left (b / (2 * PI)) (b / (2 * PI))), (Rmax_left (a / (2 * PI)) (a / (2 * PI))), (Rmax_left (b / (2 * PI)) (b / (2 * PI))) by lra. reflexivity.
Qed.
Lemma quot_le a b : a <= b -> xdiv (I2 a b) (pt (2 * PI)) = I2 (a / (2 * PI)) (b / (2 * PI)).
Proof.
  intros H. pose proof PI_RGT_0. rewrite quot_I. assert (a / (2 * PI) <= b / (2 * PI)) by (apply Rmult_le_compat_r; [apply Rlt_le, Rinv_0_lt_compat; lra|auto]).
  rewrite Rmin_left, Rmax_right by auto. reflexivity.
Qed.
Lemma quot_lt a : a < 2 * PI -> a / (2 * PI) < 1.
Proof. intros H. pose proof PI_RGT_0. apply (Rmult_lt_reg_r (2 * PI)); [lra|]. replace (a / (2 * PI) * (2 * PI)) with a by (field; lra). lra. Qed.
Lemma quot_gt a : - (2 * PI) < a -> -1 < a / (2 * PI).
Proof. intros H. pose proof PI_RGT_0. apply (Rmult_lt_reg_r (2 * PI)); [lra|]. replace (a / (2 * PI) * (2 * PI)) with a by (field; lra). lra. Qed.
Lemma quot_pos a : 0 < a -> 0 < a / (2 * PI).
Proof. intros H. pose proof PI_RGT_0. apply Rdiv_lt_0_compat; lra. Qed.
Lemma quot_neg a : a < 0 -> a / (2 * PI) < 0.
Proof. intros H. pose proof PI_RGT_0. assert (0 < (- a) / (2 * PI)) by (apply Rdiv_lt_0_compat; lra). replace (a / (2 * PI)) with (- (- a / (2 * PI))) by (field; lra). lra. Qed.
Lemma quot_npos a : a <= 0 -> a / (2 * PI) <= 0.
Proof. intros H. destruct (Req_dec a 0) as [->|]; [unfold Rdiv; lra|apply Rlt_le, quot_neg; lra]. Qed.
Lemma quot_nneg a : 0 <= a -> 0 <= a / (2 * PI).
Proof. intros H. destruct (Req_dec a 0) as [->|]; [unfold Rdiv; lra|apply Rlt_le, quot_pos; lra]. Qed.
Lemma quot_int a b c d : a <= b -> c <= d -> - (2 * PI) < a - d -> b - c < 2 * PI ->
  int0 (xdiv (xsub (I2 a b) (I2 c d)) (pt (2 * PI))) = inter (I2 ((a - d) / (2 * PI)) ((b - c) / (2 * PI))) (pt 0).
Proof.
  intros H1 H2 H3 H4. replace (xsub (I2 a b) (I2 c d)) with (I2 (a - d) (b - c)) by reflexivity. rewrite quot_le by lra.
  unfold int0, I2. rewrite (Rltb_t _ _ (quot_gt _ H3)), (Rltb_t _ _ (quot_lt _ H4)). reflexivity.
Qed.
Lemma mod_emp a b c d : a <= b -> c <= d -> - (2 * PI) < a - d -> b - c < 2 * PI -> 0 < a - d \/ b - c < 0 -> bwd_imod2 ibexE (I2 a b) (I2 c d) = (Emp, Emp).
Proof.
  intros H1 H2 H3 H4 H5. unfold bwd_imod2. cbn [ar idiv iint ibexE isub iadd imul arith0]. rewrite quot_int by auto.
  assert (inter (I2 ((a - d) / (2 * PI)) ((b - c) / (2 * PI))) (pt 0) = Emp) as ->.
  { unfold pt. apply inter_I_emp. destruct H5 as [H5|H5].
    - assert (Q := quot_pos _ H5). eapply Rle_lt_trans; [apply Rmin_r|]. eapply Rlt_le_trans; [exact Q|apply Rmax_l].
    - assert (Q := quot_neg _ H5). eapply Rle_lt_trans; [apply Rmin_l|]. eapply Rlt_le_trans; [exact Q|apply Rmax_r]. }
  assert (xmul0 Emp (pt (2 * PI)) = Emp) as -> by (unfold xmul0; destruct (itv_eqb _ _); reflexivity). reflexivity.
Qed.
Lemma mod_one a b c d : a <= b -> c <= d -> - (2 * PI) < a - d -> b - c < 2 * PI -> a - d <= 0 -> 0 <= b - c ->
  bwd_imod2 ibexE (I2 a b) (I2 c d) = (I2 (Rmax a c) (Rmin b d), I2 (Rmax a c) (Rmin b d)).
Proof.
  intros H1 H2 H3 H4 H5 H6. pose proof PI_RGT_0. unfold bwd_imod2. cbn [ar idiv iint ibexE isub iadd imul arith0]. rewrite quot_int by auto.
  assert (inter (I2 ((a - d) / (2 * PI)) ((b - c) / (2 * PI))) (pt 0) = pt 0) as ->.
  { change (pt 0) with (I2 0 0) at 1. assert (Q1 := quot_npos _ H5). assert (Q2 := quot_nneg _ H6). rewrite inter_I; rewrite Rmax_right, Rmin_right by auto; [reflexivity|lra]. }
  assert (xmul0 (pt 0) (pt (2 * PI)) = pt 0) as ->.
  { unfold xmul0. assert (itv_eqb (pt (2 * PI)) (pt 0) = false) as -> by (rewrite itv_eqb_pt; apply Reqb_f; lra). rewrite xmul_pt. f_equal. ring. }
  assert (M : Rmax a c <= Rmin b d) by (apply Rmax_lub; apply Rmin_glb; lra).
  assert (xadd (I2 c d) (pt 0) = I2 c d) as -> by (unfold xadd, I2, pt; cbn; rewrite !Rplus_0_r; reflexivity).
  rewrite inter_I by auto. assert (xsub (I2 (Rmax a c) (Rmin b d)) (pt 0) = I2 (Rmax a c) (Rmin b d)) as -> by (unfold xsub, xadd, xneg, I2, pt; cbn; rewrite Ropp_0, !Rplus_0_r; reflexivity).
  f_equal. assert (L1 := Rmax_r a c). assert (L2 := Rmin_r b d). rewrite inter_I; rewrite Rmax_right, Rmin_right by auto; auto.
Qed.
Lemma i1_eq : i_0_pi2 = I2 0 (PI / 2).
Proof. pose proof PI_RGT_0. unfold i_0_pi2, HALF_PI_i. cbn. rewrite Rmin_left, Rmax_right by lra. reflexivity. Qed.
Lemma i2_eq : i_pi_2pi = I2 (PI / 2) PI.
Proof. pose proof PI_RGT_0. unfold i_pi_2pi, HALF_PI_i, PI_i. cbn. rewrite Rmin_left, Rmax_right by lra. reflexivity. Qed.
Lemma mod_nothing T : bwd_imod2 ibexE T Emp = (Emp, Emp).
Proof.
  unfold bwd_imod2. cbn [ar idiv iint ibexE isub iadd imul arith0]. assert (xsub T Emp = Emp) as -> by (destruct T; reflexivity).
  assert (xdiv Emp (pt (2 * PI)) = Emp) as -> by reflexivity. cbn [int0]. assert (xmul0 Emp (pt (2 * PI)) = Emp) as -> by (unfold xmul0; destruct (itv_eqb _ _); reflexivity).
  cbn [xadd]. destruct T; reflexivity.
Qed.
Lemma Cmod_bwd_emp T : Cmod_bwd ibexE T Emp = Emp.
Proof. unfold Cmod_bwd. rewrite mod_nothing. reflexivity. Qed.
(** nothing is kept of an empty domain *)
Lemma polar1_emp D RHO : polar1 ibexE D Emp Emp RHO Emp = Some (Emp, Emp, Emp, Emp).
Proof. reflexivity. Qed.
Lemma polar1_of D X Y RHO TH : catan2 ibexE D 1 X Y TH = Some EEE -> polar1 ibexE D X Y RHO TH = Some (Emp, Emp, Emp, Emp).
Proof. intros H. unfold polar1. rewrite H. reflexivity. Qed.
Lemma polar_of D X Y RHO TH : catan2 ibexE D 1 X Y TH = Some EEE -> ctc_polar ibexE D X Y RHO TH = Some (Emp, Emp, Emp, Emp).
Proof. intros H. unfold ctc_polar. rewrite (polar1_of D X Y RHO TH H). reflexivity. Qed.
(** four empty quadrants *)
Lemma catan2_none D X Y TH : X <> Emp -> Y <> Emp -> TH <> Emp -> is_subset X POS && is_subset Y POS && is_subset TH i_0_pi2 = false ->
  catan2 ibexE D 0 (inter X POS) (inter Y POS) (Cmod ibexE TH i_0_pi2) = Some EEE ->
  catan2 ibexE D 0 (inter X POS) (xneg (inter Y NEG)) (xneg (Cmod ibexE TH (xneg i_0_pi2))) = Some EEE ->
  catan2 ibexE D 0 (xneg (inter X NEG)) (xneg (inter Y NEG)) (inter (xadd PI_i (Cmod ibexE TH (xneg i_pi_2pi))) i_0_pi2) = Some EEE ->
  catan2 ibexE D 0 (xneg (inter X NEG)) (inter Y POS) (inter (xsub PI_i (Cmod ibexE TH i_pi_2pi)) i_0_pi2) = Some EEE ->
  catan2 ibexE D 1 X Y TH = Some EEE.
Proof.
  intros NX NY NT HS H1 H2 H3 H4. rewrite catan2_1. destruct X; [congruence|]. destruct Y; [congruence|]. destruct TH; [congruence|]. cbn [is_empty orb].
  rewrite HS. cbn [ar ibexE iadd isub arith0]. rewrite H1, H2, H3, H4. unfold EEE. cbn [xneg hull].
  assert (xsub Emp PI_i = Emp) as -> by reflexivity. assert (xsub PI_i Emp = Emp) as -> by reflexivity. rewrite Cmod_bwd_emp. reflexivity.
Qed.
Lemma catan2_emp_th D X Y : catan2 ibexE D 0 X Y Emp = Some EEE.
Proof. cbn [catan2]. replace (is_empty X || is_empty Y || is_empty Emp) with true by (destruct X, Y; reflexivity). reflexivity. Qed.
Lemma catan2_emp_x D Y T : catan2 ibexE D 0 Emp Y T = Some EEE. Proof. reflexivity. Qed.
(** a domain of y larger than [0] with the angle [0]: nothing is kept *)
Lemma q1_lost D X Y : Y <> pt 0 -> catan2_q1 ibexE D X Y (pt 0) = EEE.
Proof.
  intros NY. pose proof PI_RGT_0. unfold catan2_q1. assert (itv_eqb Y (pt 0) = false) as -> by (apply itv_eqb_false; auto). rewrite andb_false_r.
  assert (Cmod ibexE (pt 0) i_0_pi2 = pt 0) as ->.
  { unfold Cmod. rewrite i1_eq. change (pt 0) with (I2 0 0). rewrite mod_one by lra. cbn [snd]. rewrite Rmax_left, Rmin_left by lra. reflexivity. }
  cbv zeta. cbn [pt]. rewrite (Reqb_f 0 (PI / 2)) by lra. cbn [itan ibexE]. change (Itv (Some 0) (Some 0)) with (pt 0). rewrite at_pt_pt, tan_0.
  assert (hull (pt 0) (pt 0) = pt 0) as -> by (unfold hull, pt; cbn; rewrite Rmin_left, Rmax_left by lra; reflexivity).
  assert (idiv ibexE Y (pt 0) = Emp) as -> by (cbn [idiv ibexE]; destruct Y as [|[?|] [?|]]; unfold xdiv, pt; rewrite ?Reqb_refl; reflexivity).
  assert (inter X Emp = Emp) as -> by (destruct X; reflexivity). reflexivity.
Qed.
Lemma catan2_lost D X Y : Y <> pt 0 -> catan2 ibexE D 0 X Y (pt 0) = Some EEE \/ catan2 ibexE D 0 X Y (pt 0) = None.
Proof.
  intros NY. cbn [catan2]. destruct (_ || _ || _); auto. destruct (_ && _ && _); auto. left. rewrite q1_lost; auto.
Qed.
Lemma catan2_lost' D X Y : Y <> pt 0 -> wf X -> wf Y -> sub X POS -> sub Y POS -> catan2 ibexE D 0 X Y (pt 0) = Some EEE.
Proof.
  intros NY WX WY SX SY. destruct (catan2_lost D X Y NY) as [|H]; auto. exfalso. pose proof PI_RGT_0. rewrite catan2_0 in H; auto; [discriminate|apply wf_pt|].
  intros v Hv. apply In_pt in Hv. subst. apply in_0_pi2. lra.
Qed.

(** On the axis of x, with the angle [0] and a domain of y larger than [0], all the solutions are lost. *)
Theorem C26_axis : forall D RHO, ctc_polar ibexE D (bnd 0 10) (bnd (-1) 1) RHO (pt 0) = Some (Emp, Emp, Emp, Emp).
Proof.
  intros D RHO. apply polar_of. pose proof PI_RGT_0.
  assert (bnd 0 10 = I2 0 10) as -> by (unfold bnd, mk; reval; reflexivity). assert (bnd (-1) 1 = I2 (-1) 1) as -> by (unfold bnd, mk; reval; reflexivity).
  assert (inter (I2 0 10) POS = I2 0 10) as EX by (unfold inter, POS, I2; cbn; reval; reflexivity).
  assert (inter (I2 (-1) 1) POS = I2 0 1) as EY by (unfold inter, POS, I2; cbn; reval; reflexivity).
  assert (xneg (inter (I2 (-1) 1) NEG) = I2 0 1) as EY' by (unfold inter, NEG, I2, xneg; cbn; reval; cbn; do 2 f_equal; f_equal; lra).
  assert (N1 : I2 0 1 <> pt 0) by (unfold I2, pt; intros Q; injection Q as Q; lra).
  apply catan2_none; try discriminate.
  - assert (is_subset (I2 (-1) 1) POS = false) as -> by (unfold is_subset, POS, I2; cbn; reval; reflexivity). rewrite andb_false_r. reflexivity.
  - rewrite EX, EY. assert (Cmod ibexE (pt 0) i_0_pi2 = pt 0) as ->.
    { unfold Cmod. rewrite i1_eq. change (pt 0) with (I2 0 0). rewrite mod_one by lra. cbn [snd]. rewrite Rmax_left, Rmin_left by lra. reflexivity. }
    apply catan2_lost'; auto; try (cbn; lra); intros v Hv; cbn in *; lra.
  - rewrite EX, EY'. assert (xneg (Cmod ibexE (pt 0) (xneg i_0_pi2)) = pt 0) as ->.
    { unfold Cmod. rewrite i1_eq. change (xneg (I2 0 (PI / 2))) with (I2 (- (PI / 2)) (- 0)). rewrite Ropp_0. change (pt 0) with (I2 0 0). rewrite mod_one by lra. cbn [snd].
      rewrite Rmax_left, Rmin_left by lra. unfold xneg, I2. cbn. rewrite Ropp_0. reflexivity. }
    apply catan2_lost'; auto; try (cbn; lra); intros v Hv; cbn in *; lra.
  - assert (Cmod ibexE (pt 0) (xneg i_pi_2pi) = Emp) as ->.
    { unfold Cmod. rewrite i2_eq. change (xneg (I2 (PI / 2) PI)) with (I2 (- PI) (- (PI / 2))). change (pt 0) with (I2 0 0). rewrite mod_emp by lra. reflexivity. }
    apply catan2_emp_th.
  - assert (Cmod ibexE (pt 0) i_pi_2pi = Emp) as ->.
    { unfold Cmod. rewrite i2_eq. change (pt 0) with (I2 0 0). rewrite mod_emp by lra. reflexivity. }
    apply catan2_emp_th.
Qed.
Theorem C26_axis_refuted : exists E D x y rho th X Y RHO TH, elem_ok E /\ wf X /\ wf Y /\ wf RHO /\ wf TH /\ In x X /\ In y Y /\ In rho RHO /\ In th TH /\
  polar x y rho th /\ 0 < rho /\ ctc_polar E D X Y RHO TH = Some (Emp, Emp, Emp, Emp).
Proof.
  exists ibexE, 1, 1, 0, 1, 0, (bnd 0 10), (bnd (-1) 1), (bnd 1 2), (pt 0). split; [exact ibexE_ok|].
  repeat (split; [first [apply wf_pt|apply wf_mk|apply In_pt; reflexivity|apply In_bnd; lra]|]).
  split; [unfold polar; rewrite cos_0, sin_0; lra|]. split; [lra|]. apply C26_axis.
Qed.
(** the same point with the domain [-1,1] of the angle *)
Example C26_axes_example : exists X' Y' RHO' TH', ctc_polar ibexE 1 (bnd 0 10) (bnd (-1) 1) (bnd 1 2) (bnd (-1) 1) = Some (X', Y', RHO', TH') /\
  In 1 X' /\ In 0 Y' /\ In 1 RHO' /\ In 0 TH'.
Proof.
  apply (C26_axes_partial ibexE 1 ibexE_ok ibexE_sqr_wf ibexE_sin ibexE_mul); try apply wf_mk; try (apply In_bnd; lra); try lra.
  - unfold polar. rewrite cos_0, sin_0. lra.
  - intros _. right. exists 1. split; [apply In_bnd; lra|lra].
Qed.

Print Assumptions C26_catan2_axes_partial.
Print Assumptions C26_axes_partial.
Print Assumptions C26_axis_refuted.
