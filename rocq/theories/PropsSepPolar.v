(** * C26 (contraction) and C95: the separator SepPolarXY *)
From Coq Require Import Reals Lra Lia Bool List Arith QArith Qreals Machin.
Import ListNotations.
From Verif Require Import Itv Arith Concrete PropsDyn2 Static PropsStatic Geometry PropsGeom PropsPolar PropsPolar2 PolarE SepPolar.
Open Scope R_scope.

(** The specification: the sector of a ring. *)
Definition sector (rho theta : itv) (x y : R) : Prop := exists r t, 0 <= r /\ In r rho /\ In t theta /\ x = r * cos t /\ y = r * sin t.
Definition in2 (x y : R) (b : itv * itv) : Prop := In x (fst b) /\ In y (snd b).
Definition wf2 (b : itv * itv) : Prop := wf (fst b) /\ wf (snd b).
Definition sub2 (b c : itv * itv) : Prop := sub (fst b) (fst c) /\ sub (snd b) (snd c).

Lemma in_norm2 x y b : in2 x y b -> in2 x y (norm2 b).
Proof. destruct b as [X Y]. intros [H1 H2]. unfold norm2. cbn [fst snd] in *. destruct X; [contradiction|]. destruct Y; [contradiction|]. split; auto. Qed.
Lemma norm2_sub b : sub2 (norm2 b) b.
Proof. unfold norm2. destruct (_ || _); split; cbn; auto using sub_Emp, sub_refl. Qed.
Lemma norm2_wf b : wf2 b -> wf2 (norm2 b).
Proof. unfold norm2. destruct (_ || _); auto. intros _. split; exact Logic.I. Qed.
Lemma in_inter2 x y b c : in2 x y b -> in2 x y c -> in2 x y (inter2 b c).
Proof. intros [H1 H2] [H3 H4]. apply in_norm2. split; cbn; apply In_inter; auto. Qed.
Lemma inter2_wf b c : wf2 (inter2 b c).
Proof. apply norm2_wf. split; apply wf_inter. Qed.
Lemma inter2_l b c : sub2 (inter2 b c) b.
Proof. destruct (norm2_sub (inter (fst b) (fst c), inter (snd b) (snd c))) as [A B]. split; [eapply sub_trans; [exact A|]|eapply sub_trans; [exact B|]]; apply sub_inter_l. Qed.
Lemma inter2_r b c : sub2 (inter2 b c) c.
Proof. destruct (norm2_sub (inter (fst b) (fst c), inter (snd b) (snd c))) as [A B]. split; [eapply sub_trans; [exact A|]|eapply sub_trans; [exact B|]]; apply sub_inter_r. Qed.
Lemma sub2_trans a b c : sub2 a b -> sub2 b c -> sub2 a c.
Proof. intros [A B] [C D]. split; eapply sub_trans; eauto. Qed.
Lemma wf_xneg X : wf X -> wf (xneg X).
Proof. destruct X as [|[a|] [b|]]; cbn; auto. lra. Qed.
Lemma xneg_sub X Y : sub X (xneg Y) -> sub (xneg X) Y.
Proof. intros H v Hv. assert (In (- v) X) as Q by (destruct X as [|[a|] [b|]]; cbn in *; lra). apply H in Q. destruct Y as [|[a|] [b|]]; cbn in *; lra. Qed.

Section Contracts.
  Variables (E : elem) (DBL_MAX : R).
  Hypothesis HE : elem_ok E.
  Lemma q1_contracts X Y TH : wf X -> wf Y ->
    let '(X', Y', TH') := catan2_q1 E DBL_MAX X Y TH in sub X' X /\ sub Y' Y /\ wf X' /\ wf Y' /\ wf TH'.
  Proof.
    intros WX WY. unfold catan2_q1. destruct (itv_eqb X (pt 0) && itv_eqb Y (pt 0)); [unfold EEE; refine (conj (sub_Emp _) (conj (sub_Emp _) (conj Logic.I (conj Logic.I Logic.I))))|]. cbv zeta.
    match goal with |- context [if ?c then EEE else _] => destruct c end; [unfold EEE; refine (conj (sub_Emp _) (conj (sub_Emp _) (conj Logic.I (conj Logic.I Logic.I))))|]. split; [destruct (itv_eqb Y _); auto using sub_refl, sub_inter_l|].
    split; [destruct (itv_eqb X _); auto using sub_refl, sub_inter_l|]. split; [destruct (itv_eqb Y _); auto using wf_inter|].
    split; [destruct (itv_eqb X _); auto using wf_inter|]. apply wf_inter.
  Qed.
  Lemma catan2_0_contracts X Y TH r : wf X -> wf Y -> catan2 E DBL_MAX 0 X Y TH = Some r ->
    let '(X', Y', TH') := r in sub X' X /\ sub Y' Y /\ wf X' /\ wf Y'.
  Proof.
    intros WX WY. cbn [catan2]. destruct (_ || _ || _); [intros H; injection H as <-; unfold EEE; refine (conj (sub_Emp _) (conj (sub_Emp _) (conj Logic.I Logic.I)))|]. destruct (_ && _ && _); [|discriminate].
    intros H. injection H as <-. pose proof (q1_contracts X Y TH WX WY) as Q. destruct (catan2_q1 _ _ _ _ _) as [[? ?] ?]. tauto.
  Qed.
  Lemma catan2_contracts X Y TH X' Y' TH' : wf X -> wf Y -> wf TH -> catan2 E DBL_MAX 1 X Y TH = Some (X', Y', TH') -> sub X' X /\ sub Y' Y /\ wf X' /\ wf Y'.
  Proof.
    intros WX WY WT. rewrite catan2_1. destruct (_ || _ || _); [intros H; injection H as <- <- <-; refine (conj (sub_Emp _) (conj (sub_Emp _) (conj Logic.I Logic.I)))|]. destruct (_ && _ && _).
    - intros H. injection H as H. pose proof (q1_contracts X Y TH WX WY) as Q. rewrite H in Q. tauto.
    - destruct (catan2 _ _ 0 (inter X POS) (inter Y POS) _) as [[[a1 b1] c1]|] eqn:Q1; [|discriminate].
      destruct (catan2 _ _ 0 (inter X POS) (xneg (inter Y NEG)) _) as [[[a2 b2] c2]|] eqn:Q2; [|discriminate].
      destruct (catan2 _ _ 0 (xneg (inter X NEG)) (xneg (inter Y NEG)) _) as [[[a3 b3] c3]|] eqn:Q3; [|discriminate].
      destruct (catan2 _ _ 0 (xneg (inter X NEG)) (inter Y POS) _) as [[[a4 b4] c4]|] eqn:Q4; [|discriminate].
      apply catan2_0_contracts in Q1; [|apply wf_inter|apply wf_inter]. apply catan2_0_contracts in Q2; [|apply wf_inter|apply wf_xneg, wf_inter].
      apply catan2_0_contracts in Q3; [|apply wf_xneg, wf_inter|apply wf_xneg, wf_inter]. apply catan2_0_contracts in Q4; [|apply wf_xneg, wf_inter|apply wf_inter].
      intros H. injection H as <- <- <-.
      assert (P : forall Z, sub (inter Z POS) Z) by (intros; apply sub_inter_l). assert (N : forall Z, sub (inter Z NEG) Z) by (intros; apply sub_inter_l).
      assert (sub (xneg b2) Y) by (eapply sub_trans; [apply xneg_sub, Q2|auto]). assert (sub (xneg b3) Y) by (eapply sub_trans; [apply xneg_sub, Q3|auto]).
      assert (sub (xneg a3) X) by (eapply sub_trans; [apply xneg_sub, Q3|auto]). assert (sub (xneg a4) X) by (eapply sub_trans; [apply xneg_sub, Q4|auto]).
      assert (sub a1 X) by (eapply sub_trans; [apply Q1|auto]). assert (sub a2 X) by (eapply sub_trans; [apply Q2|auto]).
      assert (sub b1 Y) by (eapply sub_trans; [apply Q1|auto]). assert (sub b4 Y) by (eapply sub_trans; [apply Q4|auto]).
      refine (conj _ (conj _ (conj _ _))).
      + repeat apply hull_least; auto; repeat apply wf_hull; try apply wf_xneg; tauto.
      + repeat apply hull_least; auto; repeat apply wf_hull; try apply wf_xneg; tauto.
      + repeat apply wf_hull; try apply wf_xneg; tauto.
      + repeat apply wf_hull; try apply wf_xneg; tauto.
  Qed.
  Lemma polar1_contracts X Y RHO TH X' Y' RHO' TH' : wf X -> wf Y -> wf TH -> polar1 E DBL_MAX X Y RHO TH = Some (X', Y', RHO', TH') ->
    sub X' X /\ sub Y' Y /\ sub RHO' RHO /\ wf X' /\ wf Y' /\ wf TH'.
  Proof.
    intros WX WY WT H. pose proof (polar1_th_wf E DBL_MAX _ _ _ _ _ _ _ _ WX WY WT H) as W4. unfold polar1 in H.
    destruct (catan2 E DBL_MAX 1 X Y TH) as [[[X1 Y1] T1]|] eqn:EC; [|discriminate]. apply catan2_contracts in EC as (S1 & S2 & W1 & W2); auto.
    destruct (ibwd_add _ _ _ _) as [a2 a1]. destruct (_ || _ || _ || _) in H; injection H as <- <- <- <-.
    - refine (conj (sub_Emp _) (conj (sub_Emp _) (conj (sub_Emp _) (conj Logic.I (conj Logic.I Logic.I))))).
    - refine (conj _ (conj _ (conj _ (conj _ (conj _ W4))))); try apply wf_inter; [| |apply ibwd_sqr_sub; auto];
        (eapply sub_trans; [apply sub_inter_l|eapply sub_trans; [apply ibwd_sqr_sub; auto|auto]]).
  Qed.
  (** CtcPolar only contracts x, y and rho, and it always ends. (The domain of the angle may be larger when the integers
      of an interval are not computed exactly.) *)
  Theorem C26_contracts : forall X Y RHO TH, wf X -> wf Y -> wf TH ->
    exists X' Y' RHO' TH', ctc_polar E DBL_MAX X Y RHO TH = Some (X', Y', RHO', TH') /\ sub X' X /\ sub Y' Y /\ sub RHO' RHO /\ wf X' /\ wf Y'.
  Proof.
    intros X Y RHO TH WX WY WT.
    assert (T : forall X Y RHO TH, wf X -> wf Y -> wf TH -> exists r, polar1 E DBL_MAX X Y RHO TH = Some r).
    { clear. intros X Y RHO TH WX WY WT. unfold polar1. pose proof (C26_catan2_depth E DBL_MAX X Y TH WX WY WT) as D. destruct (catan2 E DBL_MAX 1 X Y TH) as [[[? ?] ?]|]; [|congruence].
      destruct (ibwd_add _ _ _ _). destruct (_ || _ || _ || _); eauto. }
    destruct (T X Y RHO TH) as ([[[X1 Y1] R1] T1] & E1); auto. unfold ctc_polar. rewrite E1. apply polar1_contracts in E1 as (S1 & S2 & S3 & W1 & W2 & W3); auto.
    destruct (T X1 Y1 R1 T1) as ([[[X2 Y2] R2] T2] & E2); auto. rewrite E2. apply polar1_contracts in E2 as (S4 & S5 & S6 & W4 & W5 & W6); auto.
    exists X2, Y2, R2, T2. refine (conj eq_refl (conj _ (conj _ (conj _ (conj W4 W5))))); eapply sub_trans; eauto.
  Qed.
End Contracts.

Section Sep.
  Variables (E : elem) (DBL_MAX : R).
  Hypothesis HE : elem_ok E.
  Hypothesis ibwd_sqr_wf : forall X Y, wf X -> wf (ibwd_sqr E Y X).
  Hypothesis isin_zero : forall k, sub (isin E (pt (IZR k * PI))) (pt 0).
  Hypothesis imul_zero : forall X, sub (imul (ar E) X (pt 0)) (pt 0).
  Variables (mid : itv -> R) (M_PI : R).
  Notation limit := (limit mid M_PI).
  Notation sep_polar := (sep_polar E DBL_MAX mid M_PI).
  Notation contract_in := (contract_in E DBL_MAX mid M_PI).
  Notation contract_out := (contract_out E DBL_MAX).
  Notation polar_xy := (polar_xy E DBL_MAX).

  Lemma polar_xy_some b RHO TH : wf2 b -> wf TH -> exists b', polar_xy b RHO TH = Some b' /\ sub2 b' b /\ wf2 b'.
  Proof.
    intros [W1 W2] WT. destruct (C26_contracts E DBL_MAX HE (fst b) (snd b) RHO TH W1 W2 WT) as (X & Y & R1 & T1 & EC & S1 & S2 & _ & W3 & W4).
    exists (X, Y). unfold SepPolar.polar_xy. rewrite EC. refine (conj eq_refl (conj (conj S1 S2) (conj W3 W4))).
  Qed.
  Lemma polar_xy_in x y r t b RHO TH : wf2 b -> wf RHO -> wf TH -> in2 x y b -> In r RHO -> In t TH -> 0 < r -> x = r * cos t -> y = r * sin t ->
    (y = 0 -> sub (snd b) (pt 0) \/ exists w, In w TH /\ w <> t) -> exists b', polar_xy b RHO TH = Some b' /\ in2 x y b'.
  Proof.
    intros [W1 W2] WR WT [H1 H2] HR HT P0 Ex Ey HC.
    destruct (C26_axes_partial E DBL_MAX HE ibwd_sqr_wf isin_zero imul_zero x y r t (fst b) (snd b) RHO TH) as (X & Y & R1 & T1 & EC & A1 & A2 & _ & _); auto.
    { split; auto. lra. }
    exists (X, Y). unfold SepPolar.polar_xy. rewrite EC. split; auto. split; auto.
  Qed.
  Lemma wf_upto a i : wf (upto a i). Proof. destruct i as [|[l|] ?]; try exact Logic.I. apply wf_mk. Qed.
  Lemma wf_downto a i : wf (downto i a). Proof. destruct i as [|? [u|]]; try exact Logic.I. apply wf_mk. Qed.
  Lemma wf_above i : wf (above i). Proof. destruct i as [|? [u|]]; cbn; auto. Qed.
  Lemma contract_out_some RHO TH b : wf2 b -> wf TH -> exists b', contract_out RHO TH b = Some b' /\ sub2 b' b.
  Proof.
    intros W WT. unfold SepPolar.contract_out. destruct (polar_xy_some b RHO TH W WT) as (b' & -> & S & W'). eexists. split; [reflexivity|]. eapply sub2_trans; [apply norm2_sub|exact S].
  Qed.
  Lemma contract_in_some RHO TH b : wf2 b -> wf TH -> RHO <> Emp -> TH <> Emp -> exists b', contract_in RHO TH b = Some b' /\ sub2 b' b.
  Proof.
    intros W WT NR NT. unfold SepPolar.contract_in. assert (is_empty RHO || is_empty TH = false) as -> by (destruct RHO, TH; congruence || reflexivity).
    destruct (polar_xy_some b POS (upto (limit TH) TH) W (wf_upto _ _)) as ([x1 y1] & -> & _).
    destruct (polar_xy_some b POS (downto TH (limit TH + 2 * M_PI)) W (wf_downto _ _)) as ([x2 y2] & -> & _).
    destruct (polar_xy_some b (upto 0 RHO) TH W WT) as ([x3 y3] & -> & _). destruct (polar_xy_some b (above RHO) TH W WT) as ([x4 y4] & -> & _).
    eexists. split; [reflexivity|]. eapply sub2_trans; [apply norm2_sub|]. split; apply sub_inter_l.
  Qed.

  (** The separator only contracts: both results are included in both boxes. *)
  Theorem C95_contracts : forall RHO TH x_in x_out, wf TH -> RHO <> Emp -> TH <> Emp ->
    exists x_in' x_out', sep_polar RHO TH x_in x_out = Some (x_in', x_out') /\ sub2 x_in' x_in /\ sub2 x_in' x_out /\ sub2 x_out' x_out /\ sub2 x_out' x_in.
  Proof.
    intros RHO TH xi xo WT NR NT. unfold SepPolar.sep_polar. set (o := inter2 xo xi). set (i := inter2 xi o).
    assert (sub2 i xi /\ sub2 i xo /\ sub2 o xo /\ sub2 o xi) as (A & B & C & D).
    { assert (sub2 o xo) by apply inter2_l. assert (sub2 o xi) by apply inter2_r. assert (sub2 i o) by apply inter2_r. assert (sub2 i xi) by apply inter2_l. refine (conj _ (conj _ (conj _ _))); eauto using sub2_trans. }
    destruct (is_empty (fst i)); [exists i, o; auto|].
    destruct (contract_out_some RHO TH o (inter2_wf _ _) WT) as (o' & -> & S1). destruct (contract_in_some RHO TH i (inter2_wf _ _) WT NR NT) as (i' & -> & S2).
    exists i', o'. refine (conj eq_refl _). eauto 10 using sub2_trans.
  Qed.

  (** The points of the sector stay in [x_out]. *)
  Theorem C95_out_partial : forall x y r t RHO TH x_in x_out, wf RHO -> wf TH -> in2 x y x_in -> in2 x y x_out ->
    In r RHO -> In t TH -> 0 < r -> x = r * cos t -> y = r * sin t -> (y = 0 -> sub (snd x_out) (pt 0) \/ exists w, In w TH /\ w <> t) ->
    exists x_in' x_out', sep_polar RHO TH x_in x_out = Some (x_in', x_out') /\ in2 x y x_out'.
  Proof.
    intros x y r t RHO TH xi xo WR WT H1 H2 HR HT P0 Ex Ey HC. unfold SepPolar.sep_polar. set (o := inter2 xo xi). set (i := inter2 xi o).
    assert (in2 x y o) as Ho by (apply in_inter2; auto). assert (in2 x y i) as Hi by (apply in_inter2; auto).
    assert (sub (snd o) (snd xo)) as So by apply inter2_l.
    assert (is_empty (fst i) = false) as -> by (destruct Hi as [Hi _]; destruct (fst i); [contradiction|reflexivity]).
    destruct (contract_in_some RHO TH i (inter2_wf _ _) WT) as (i' & -> & _); [intros ->; contradiction|intros ->; contradiction|].
    unfold SepPolar.contract_out. destruct (polar_xy_in x y r t o RHO TH) as (b & -> & Hb); auto; [apply inter2_wf| |].
    - intros Y0. destruct (HC Y0) as [S|S]; auto. left. eapply sub_trans; eauto.
    - do 2 eexists. split; [reflexivity|]. apply in_norm2. exact Hb.
  Qed.
  (** The points outside the sector stay in [x_in], when their angle is in the range covered by [theta_m], [theta] and [theta_p]. *)
  Theorem C95_in_partial : forall x y r t RHO TH x_in x_out, wf RHO -> wf TH -> RHO <> Emp -> TH <> Emp -> in2 x y x_in -> in2 x y x_out ->
    0 < r -> x = r * cos t -> y = r * sin t -> limit TH <= t <= limit TH + 2 * M_PI -> ~ sector RHO TH x y ->
    (y = 0 -> In t TH -> sub (snd x_in) (pt 0) \/ exists w, In w TH /\ w <> t) ->
    exists x_in' x_out', sep_polar RHO TH x_in x_out = Some (x_in', x_out') /\ in2 x y x_in'.
  Proof.
    intros x y r t RHO TH xi xo WR WT NR NT H1 H2 P0 Ex Ey L NS HC. unfold SepPolar.sep_polar. set (o := inter2 xo xi). set (i := inter2 xi o).
    assert (in2 x y o) as Ho by (apply in_inter2; auto). assert (in2 x y i) as Hi by (apply in_inter2; auto).
    assert (sub (snd i) (snd xi)) as Si by apply inter2_l. assert (wf2 i) as W by apply inter2_wf.
    assert (is_empty (fst i) = false) as -> by (destruct Hi as [Hi _]; destruct (fst i); [contradiction|reflexivity]).
    destruct (contract_out_some RHO TH o (inter2_wf _ _) WT) as (o' & -> & _).
    unfold SepPolar.contract_in. assert (is_empty RHO || is_empty TH = false) as -> by (destruct RHO, TH; congruence || reflexivity).
    destruct (polar_xy_some i POS (upto (limit TH) TH) W (wf_upto _ _)) as ([x1 y1] & E1 & _).
    destruct (polar_xy_some i POS (downto TH (limit TH + 2 * M_PI)) W (wf_downto _ _)) as ([x2 y2] & E2 & _).
    destruct (polar_xy_some i (upto 0 RHO) TH W WT) as ([x3 y3] & E3 & _). destruct (polar_xy_some i (above RHO) TH W WT) as ([x4 y4] & E4 & _).
    assert (in2 x y (x1, y1) \/ in2 x y (x2, y2) \/ in2 x y (x3, y3) \/ in2 x y (x4, y4)) as C.
    { assert (In t TH \/ In t (upto (limit TH) TH) /\ In (match TH with Itv (Some l) _ => l | _ => t end) (upto (limit TH) TH) /\ match TH with Itv (Some l) _ => l | _ => t end <> t
              \/ In t (downto TH (limit TH + 2 * M_PI)) /\ In (match TH with Itv _ (Some u) => u | _ => t end) (downto TH (limit TH + 2 * M_PI)) /\ match TH with Itv _ (Some u) => u | _ => t end <> t) as [C|[(C & C1 & C2)|(C & C1 & C2)]].
      { destruct TH as [|[l|] [u|]]; [congruence| | | |left; exact (conj Logic.I Logic.I)].
        - cbn [upto downto]. destruct (Rlt_dec t l) as [Q|Q]; [right; left; rewrite !In_bnd; lra|]. destruct (Rlt_dec u t) as [Q'|Q']; [right; right; rewrite !In_bnd; lra|]. left. cbn. lra.
        - cbn [upto downto]. destruct (Rlt_dec t l) as [Q|Q]; [right; left; rewrite !In_bnd; lra|]. left. cbn. split; [lra|auto].
        - cbn [upto downto]. destruct (Rlt_dec u t) as [Q'|Q']; [right; right; rewrite !In_bnd; lra|]. left. cbn. split; [auto|lra]. }
      - assert (~ In r RHO) as NIr by (intros HR; apply NS; exists r, t; repeat (split; auto); lra).
        assert (In r (upto 0 RHO) \/ In r (above RHO)) as [C3|C3].
        { destruct RHO as [|[l|] [u|]]; [congruence| | | |destruct NIr; exact (conj Logic.I Logic.I)]; cbn [upto above]; cbn in NIr.
          - destruct (Rlt_dec r l); [left; apply In_bnd; lra|right; cbn; split; auto; lra].
          - destruct (Rlt_dec r l); [left; apply In_bnd; lra|]. destruct NIr. split; auto; lra.
          - right. cbn. split; auto. destruct (Rle_dec u r); auto. destruct NIr. split; auto; lra. }
        + right; right; left. destruct (polar_xy_in x y r t i (upto 0 RHO) TH) as (b & Eb & Hb); auto; [apply wf_upto| |rewrite E3 in Eb; injection Eb as <-; auto].
          intros Y0. destruct (HC Y0 C) as [S|S]; auto. left. eapply sub_trans; eauto.
        + right; right; right. destruct (polar_xy_in x y r t i (above RHO) TH) as (b & Eb & Hb); auto; [apply wf_above| |rewrite E4 in Eb; injection Eb as <-; auto].
          intros Y0. destruct (HC Y0 C) as [S|S]; auto. left. eapply sub_trans; eauto.
      - left. destruct (polar_xy_in x y r t i POS (upto (limit TH) TH)) as (b & Eb & Hb); auto; [exact Logic.I|apply wf_upto|cbn; lra| |rewrite E1 in Eb; injection Eb as <-; auto].
        intros _. right. eexists. split; [exact C1|exact C2].
      - right; left. destruct (polar_xy_in x y r t i POS (downto TH (limit TH + 2 * M_PI))) as (b & Eb & Hb); auto; [exact Logic.I|apply wf_downto|cbn; lra| |rewrite E2 in Eb; injection Eb as <-; auto].
        intros _. right. eexists. split; [exact C1|exact C2]. }
    rewrite E1, E2, E3, E4. do 2 eexists. split; [reflexivity|]. apply in_norm2. destruct Hi as [Hx Hy].
    split; cbn [fst snd]; apply In_inter; (split; [auto|]); destruct C as [[C1 C2]|[[C1 C2]|[[C1 C2]|[C1 C2]]]]; auto using In_hull_l, In_hull_r.
  Qed.
End Sep.

(** polar coordinates with an angle above a given one *)
Lemma polar_from L x y : (x <> 0 \/ y <> 0) -> exists r t, 0 < r /\ x = r * cos t /\ y = r * sin t /\ L <= t <= L + 2 * PI.
Proof.
  intros N. pose proof PI_RGT_0 as HP. set (r := sqrt (x * x + y * y)).
  assert (0 < x * x + y * y) as P by (destruct N; nra). assert (0 < r) as Pr by (apply sqrt_lt_R0; auto). assert (r * r = x * x + y * y) as Er by (apply sqrt_sqrt; lra).
  assert (exists t, x = r * cos t /\ y = r * sin t) as (t & Ex & Ey).
  { set (c := x / r). set (s := y / r). assert (x = r * c) as Ex by (unfold c; field; lra). assert (y = r * s) as Ey by (unfold s; field; lra).
    assert (c * c + s * s = 1) as C1. { apply (Rmult_eq_reg_l (r * r)); [|nra]. replace (r * r * (c * c + s * s)) with (r * c * (r * c) + r * s * (r * s)) by ring. rewrite <- Ex, <- Ey. lra. }
    assert (-1 <= c <= 1) as Bc by (split; nra). assert (Q : sqrt (1 - Rsqr c) = Rabs s). { replace (1 - Rsqr c) with (Rsqr s) by (unfold Rsqr; lra). apply sqrt_Rsqr_abs. }
    destruct (Rle_dec 0 s).
    - exists (acos c). rewrite cos_acos, sin_acos by auto. rewrite Q, Rabs_right by lra. auto.
    - exists (- acos c). rewrite cos_neg, sin_neg, cos_acos, sin_acos by auto. rewrite Q, Rabs_left by lra. split; auto. rewrite Ey. ring. }
  set (k := (up ((t - L) / (2 * PI)) - 1)%Z). exists r, (t - IZR k * (2 * PI)).
  assert (cos (t - IZR k * (2 * PI)) = cos t) as -> by apply cos_mod. assert (sin (t - IZR k * (2 * PI)) = sin t) as -> by apply sin_mod.
  refine (conj Pr (conj Ex (conj Ey _))). destruct (archimed ((t - L) / (2 * PI))) as [A1 A2]. unfold k. rewrite minus_IZR. set (q := (t - L) / (2 * PI)) in *.
  assert (t - L = q * (2 * PI)) as Eq by (unfold q; field; lra). nra.
Qed.

(** ** the constant [M_PI] of cmath is below pi *)
Fixpoint qpow (q : Q) (n : nat) : Q := match n with O => 1%Q | Datatypes.S n => (q * qpow q n)%Q end.
Lemma qpow_R q n : Q2R (qpow q n) = Q2R q ^ n.
Proof. induction n; cbn [qpow pow]; [unfold Q2R; cbn; lra|]. rewrite Q2R_mult, IHn. reflexivity. Qed.
Definition q_inv_odd (n : nat) : Q := Qmake 1 (Pos.of_nat (2 * n + 1)).
Lemma q_inv_odd_R n : Q2R (q_inv_odd n) = / INR (2 * n + 1).
Proof.
  unfold q_inv_odd, Q2R. cbn [Qnum Qden]. rewrite Rmult_1_l. f_equal. rewrite INR_IZR_INZ. f_equal. lia.
Qed.
Definition q_term (n : nat) : Q := (qpow (Qmake (-1) 1) n * ((Qmake 2 1) * (qpow (Qmake 1 3) (2 * n + 1) * q_inv_odd n) + qpow (Qmake 1 7) (2 * n + 1) * q_inv_odd n))%Q.
Lemma q_term_R n : Q2R (q_term n) = tg_alt PI_2_3_7_tg n.
Proof.
  unfold q_term, tg_alt, PI_2_3_7_tg, Ratan_seq, Rdiv. rewrite !Q2R_mult, Q2R_plus, !Q2R_mult, !qpow_R, q_inv_odd_R. unfold Q2R at 1 2 3 4. cbn [Qnum Qden].
  rewrite Rinv_1, !Rmult_1_r, !Rmult_1_l. reflexivity.
Qed.
Fixpoint q_sum (n : nat) : Q := match n with O => q_term 0 | Datatypes.S m => (q_sum m + q_term n)%Q end.
Lemma q_sum_R n : Q2R (q_sum n) = sum_f_R0 (tg_alt PI_2_3_7_tg) n.
Proof. induction n; cbn [q_sum sum_f_R0]; [apply q_term_R|]. rewrite Q2R_plus, IHn, q_term_R. reflexivity. Qed.
Definition m_pi : R := 884279719003555 / 281474976710656.
Lemma m_pi_lt : m_pi < PI.
Proof.
  destruct (PI_2_3_7_ineq 10) as [H _]. rewrite <- q_sum_R in H. assert (Qlt (Qmake 884279719003555 1125899906842624) (q_sum (Datatypes.S (2 * 10)))) as Q by (vm_compute; reflexivity).
  apply Qlt_Rlt in Q. unfold Q2R at 1 in Q. cbn [Qnum Qden] in Q. unfold m_pi. lra.
Qed.
Lemma m_pi_gt : 3 < m_pi. Proof. unfold m_pi. lra. Qed.

(** ** the gap opposite to the sector *)
Lemma gap_q a b : 0 < a -> a <= b -> b <= PI / 2 -> forall D, catan2 ibexE D 0 (I2 (3/2) (3/2)) (I2 0 0) (I2 a b) = Some EEE.
Proof.
  intros A B C D. pose proof PI_RGT_0. rewrite catan2_0; try (cbn; lra).
  - f_equal. unfold catan2_q1. assert (itv_eqb (I2 (3 / 2) (3 / 2)) (pt 0) = false) as -> by (apply itv_eqb_false; intros Q; injection Q as Q; lra). cbn [andb]. cbv zeta.
    assert (Cmod ibexE (I2 a b) i_0_pi2 = I2 a b) as ->.
    { unfold Cmod. rewrite i1_eq, mod_one by lra. cbn [snd]. rewrite Rmax_left, Rmin_left by lra. reflexivity. }
    assert (iatan ibexE (idiv ibexE (I2 0 0) (I2 (3 / 2) (3 / 2))) = I2 0 0) as ->.
    { assert (idiv ibexE (I2 0 0) (I2 (3 / 2) (3 / 2)) = pt 0) as ->.
      { cbn [idiv ibexE]. unfold xdiv, I2. rewrite (Reqb_f (3/2) 0) by lra. cbn [andb]. rewrite (Rltb_t 0 (3/2)) by lra. cbn [orb]. unfold min4, max4, Rdiv. rewrite !Rmult_0_l. rewrite !Rmin_left, !Rmax_left by lra. reflexivity. }
      cbn [iatan ibexE]. rewrite at_pt_pt, atan_0. reflexivity. }
    rewrite (inter_I_emp a b 0 0) by (rewrite Rmin_right, Rmax_left by lra; lra). cbn [is_empty]. rewrite !orb_true_r. reflexivity.
  - intros v Hv. cbn in *. lra.
  - intros v Hv. cbn in *. lra.
  - intros v Hv. apply in_0_pi2. cbn in Hv. lra.
Qed.
Lemma gap D RHO a b : - PI < a -> a <= b -> b < PI -> ctc_polar ibexE D (I2 (-3/2) (-3/2)) (I2 0 0) RHO (I2 a b) = Some (Emp, Emp, Emp, Emp).
Proof.
  intros A B C. apply polar_of. pose proof PI_RGT_0.
  assert (inter (I2 (-3/2) (-3/2)) POS = Emp) as EX by (unfold inter, POS, I2; cbn; reval; reflexivity).
  assert (xneg (inter (I2 (-3/2) (-3/2)) NEG) = I2 (3/2) (3/2)) as EX' by (unfold inter, NEG, I2, xneg; cbn; reval; cbn; do 2 f_equal; f_equal; lra).
  assert (inter (I2 0 0) POS = I2 0 0) as EY by (unfold inter, POS, I2; cbn; reval; reflexivity).
  assert (xneg (inter (I2 0 0) NEG) = I2 0 0) as EY' by (unfold inter, NEG, I2, xneg; cbn; reval; cbn; do 2 f_equal; f_equal; lra).
  apply catan2_none; try discriminate.
  - assert (is_subset (I2 (-3/2) (-3/2)) POS = false) as -> by (unfold is_subset, POS, I2; cbn; reval; reflexivity). reflexivity.
  - rewrite EX. apply catan2_emp_x.
  - rewrite EX. apply catan2_emp_x.
  - rewrite EX', EY'. unfold Cmod. rewrite i2_eq. change (xneg (I2 (PI / 2) PI)) with (I2 (- PI) (- (PI / 2))).
    destruct (Rle_dec a (- (PI / 2))) as [Q|Q].
    + rewrite mod_one by lra. cbn [snd]. rewrite Rmax_left by lra. unfold PI_i. cbn [ar ibexE iadd arith0].
      set (m := Rmin b (- (PI / 2))). assert (m <= - (PI / 2)) by apply Rmin_r. assert (a <= m) by (unfold m; apply Rmin_glb; lra).
      change (xadd (pt PI) (I2 a m)) with (I2 (PI + a) (PI + m)). rewrite i1_eq, inter_I by (rewrite Rmax_left, Rmin_left by lra; lra). rewrite Rmax_left, Rmin_left by lra.
      apply gap_q; lra.
    + rewrite mod_emp by lra. apply catan2_emp_th.
  - rewrite EX', EY. unfold Cmod. rewrite i2_eq. destruct (Rle_dec (PI / 2) b) as [Q|Q].
    + rewrite mod_one by lra. cbn [snd]. rewrite Rmin_left by lra. unfold PI_i. cbn [ar ibexE isub arith0].
      set (m := Rmax a (PI / 2)). assert (PI / 2 <= m) by apply Rmax_r. assert (m <= b) by (unfold m; apply Rmax_lub; lra).
      change (xsub (pt PI) (I2 m b)) with (I2 (PI - b) (PI - m)). rewrite i1_eq, inter_I by (rewrite Rmax_left, Rmin_left by lra; lra). rewrite Rmax_left, Rmin_left by lra.
      apply gap_q; lra.
    + rewrite mod_emp by lra. apply catan2_emp_th.
Qed.
(** [Interval::mid] for bounded intervals, 0 otherwise *)
Definition mid0 (i : itv) : R := match i with Itv (Some a) (Some b) => (a + b) / 2 | _ => 0 end.

(** With the double [M_PI], the angles between [mid(theta) + M_PI] and [mid(theta) + pi] are in none of [theta_m], [theta],
    [theta_p]: a point outside the sector is removed from both boxes. *)
Theorem C95_in_refuted : exists E D mid RHO TH x y b, elem_ok E /\ wf RHO /\ wf TH /\ wf2 b /\ in2 x y b /\ (x <> 0 \/ y <> 0) /\ ~ sector RHO TH x y /\
  (exists v w, In v TH /\ In w TH /\ v <> w) /\ sep_polar E D mid m_pi RHO TH b b = Some ((Emp, Emp), (Emp, Emp)).
Proof.
  exists ibexE, 1, mid0, (I2 1 2), (I2 (-1) 1), (-3/2), 0, (I2 (-3/2) (-3/2), I2 0 0). pose proof m_pi_lt as M1. pose proof m_pi_gt as M2. pose proof PI_RGT_0.
  split; [exact ibexE_ok|]. split; [cbn; lra|]. split; [cbn; lra|]. split; [split; cbn; lra|]. split; [split; cbn; lra|]. split; [left; lra|]. split; [|split].
  - intros (r & t & R0 & _ & Ht & Ex & _). cbn in Ht. assert (0 < cos t) by (apply cos_gt_0; lra). nra.
  - exists (-1), 1. cbn. lra.
  - unfold sep_polar. assert (inter2 (I2 (-3/2) (-3/2), I2 0 0) (I2 (-3/2) (-3/2), I2 0 0) = (I2 (-3/2) (-3/2), I2 0 0)) as Ei.
    { unfold inter2. cbn [fst snd]. rewrite !inter_I by (rewrite Rmax_left, Rmin_left by lra; lra). rewrite !Rmax_left, !Rmin_left by lra. reflexivity. }
    rewrite !Ei. cbn [fst snd is_empty]. unfold contract_out, contract_in, polar_xy. cbn [fst snd]. rewrite gap by lra. cbn [is_empty orb]. cbv zeta.
    assert (upto (limit mid0 m_pi (I2 (-1) 1)) (I2 (-1) 1) = I2 (- m_pi) (-1)) as ->.
    { unfold limit, mid0. cbn [upto I2]. replace ((-1 + 1) / 2 - m_pi) with (- m_pi) by lra. unfold bnd, mk. cbn. rewrite (Rle_dec_t _ _) by lra. reflexivity. }
    assert (downto (I2 (-1) 1) (limit mid0 m_pi (I2 (-1) 1) + 2 * m_pi) = I2 1 m_pi) as ->.
    { unfold limit, mid0. cbn [downto I2]. replace ((-1 + 1) / 2 - m_pi + 2 * m_pi) with m_pi by lra. unfold bnd, mk. cbn. rewrite (Rle_dec_t _ _) by lra. reflexivity. }
    rewrite !gap by lra. reflexivity.
Qed.
Lemma origin_any E D RHO TH : elem_ok E -> wf TH -> ctc_polar E D (pt 0) (pt 0) RHO TH = Some (Emp, Emp, Emp, Emp).
Proof.
  intros HE WT. assert (Q : forall T r, catan2 E D 0 (pt 0) (pt 0) T = Some r -> r = EEE).
  { intros T r. cbn [catan2]. destruct (_ || _ || _); [congruence|]. destruct (_ && _ && _); [|discriminate]. unfold catan2_q1. rewrite itv_eqb_refl. cbn [andb]. congruence. }
  assert (Ip : inter (pt 0) POS = pt 0) by (unfold inter, pt, POS; cbn; reval; reflexivity).
  assert (In' : xneg (inter (pt 0) NEG) = pt 0) by (unfold inter, pt, NEG; cbn; reval; cbn; rewrite Ropp_0; reflexivity).
  pose proof (C26_catan2_depth E D (pt 0) (pt 0) TH (wf_pt 0) (wf_pt 0) WT) as ND.
  assert (exists T, catan2 E D 1 (pt 0) (pt 0) TH = Some (Emp, Emp, T)) as (T & EC).
  { rewrite catan2_1 in ND |- *. destruct (_ || _ || _); [unfold EEE; eauto|]. destruct (_ && _ && _).
    - unfold catan2_q1. rewrite itv_eqb_refl. cbn [andb]. unfold EEE. eauto.
    - rewrite Ip, In' in ND |- *. do 4 match goal with |- context [catan2 E D 0 ?a ?b ?c] => let K := fresh in destruct (catan2 E D 0 a b c) as [[[? ?] ?]|] eqn:K; [apply Q in K; injection K as -> -> ->|congruence] end.
      cbn. eauto. }
  assert (P1 : polar1 E D (pt 0) (pt 0) RHO TH = Some (Emp, Emp, Emp, Emp)).
  { unfold polar1. rewrite EC. destruct (ibwd_add _ _ _ _) as [a2 a1]. rewrite ibwd_sqr_emp by auto. reflexivity. }
  unfold ctc_polar. rewrite P1. unfold polar1. cbn [catan2 is_empty orb]. unfold EEE. destruct (ibwd_add _ _ _ _) as [a2 a1]. rewrite ibwd_sqr_emp by auto. reflexivity.
Qed.
(** The origin, and the axis of x when the domain of the angle is a point, are removed from [x_out]. *)
Theorem C95_out_refuted : (forall E D mid M_PI RHO TH, elem_ok E -> wf TH -> RHO <> Emp -> TH <> Emp -> In 0 RHO ->
    sector RHO TH 0 0 /\ exists x_in', sep_polar E D mid M_PI RHO TH (pt 0, pt 0) (pt 0, pt 0) = Some (x_in', (Emp, Emp))) /\
  exists E D mid RHO TH x y b, elem_ok E /\ wf RHO /\ wf TH /\ wf2 b /\ in2 x y b /\ x <> 0 /\ sector RHO TH x y /\
    exists x_in', sep_polar E D mid m_pi RHO TH b b = Some (x_in', (Emp, Emp)).
Proof.
  split.
  - intros E D mid M_PI RHO TH HE WT NR NT H0. destruct (wf_witness TH WT NT) as (t & Ht). split.
    { exists 0, t. repeat (split; [auto; lra|]). rewrite !Rmult_0_l. auto. }
    unfold sep_polar. assert (Ei : inter2 (pt 0, pt 0) (pt 0, pt 0) = (pt 0, pt 0)).
    { unfold inter2. cbn [fst snd]. change (pt 0) with (I2 0 0). rewrite !inter_I by (rewrite Rmax_left, Rmin_left by lra; lra). rewrite !Rmax_left, !Rmin_left by lra. reflexivity. }
    rewrite !Ei. cbn [fst snd pt is_empty].
    assert (wf2 (pt 0, pt 0)) as W by (split; apply wf_pt). destruct (contract_in_some E D HE mid M_PI RHO TH (pt 0, pt 0) W WT NR NT) as (i' & EI & _).
    change (Itv (Some 0) (Some 0)) with (pt 0). rewrite EI. unfold contract_out, polar_xy. cbn [fst snd]. rewrite origin_any by auto. eexists. reflexivity.
  - exists ibexE, 1, mid0, (bnd 1 2), (pt 0), 1, 0, (bnd 0 10, bnd (-1) 1).
    split; [exact ibexE_ok|]. split; [apply wf_mk|]. split; [apply wf_pt|]. split; [split; apply wf_mk|]. split; [split; apply In_bnd; lra|]. split; [lra|]. split.
    { exists 1, 0. rewrite cos_0, sin_0. split; [lra|]. split; [apply In_bnd; lra|]. split; [apply In_pt; auto|]. lra. }
    unfold sep_polar.
    assert (forall a b, a <= b -> inter (bnd a b) (bnd a b) = bnd a b) as Ib.
    { intros a b L. unfold bnd, mk. cbn. rewrite (Rle_dec_t _ _) by lra. change (inter (I2 a b) (I2 a b) = I2 a b). rewrite inter_I; rewrite Rmax_left, Rmin_left by lra; [reflexivity|lra]. }
    assert (inter2 (bnd 0 10, bnd (-1) 1) (bnd 0 10, bnd (-1) 1) = (bnd 0 10, bnd (-1) 1)) as Ei.
    { unfold inter2. cbn [fst snd]. rewrite !Ib by lra. unfold norm2. cbn [fst snd]. unfold bnd, mk. cbn. reval. reflexivity. }
    rewrite !Ei. assert (wf2 (bnd 0 10, bnd (-1) 1)) as W by (split; apply wf_mk).
    destruct (contract_in_some ibexE 1 ibexE_ok mid0 m_pi (bnd 1 2) (pt 0) (bnd 0 10, bnd (-1) 1) W (wf_pt 0)) as (i' & EI & _); [unfold bnd, mk; cbn; reval; discriminate|discriminate|].
    rewrite EI. unfold contract_out, polar_xy. cbn [fst snd]. rewrite C26_axis. assert (is_empty (bnd 0 10) = false) as -> by (unfold bnd, mk; cbn; reval; reflexivity). eexists. reflexivity.
Qed.

(** Every point but the origin, when [M_PI] is at least pi: a point is kept in [x_in] or in [x_out] according to its place. *)
Theorem C95_separator_partial : forall E D mid M_PI RHO TH x y x_in x_out, elem_ok E -> (forall X Y, wf X -> wf (ibwd_sqr E Y X)) ->
  (forall k, sub (isin E (pt (IZR k * PI))) (pt 0)) -> (forall X, sub (imul (ar E) X (pt 0)) (pt 0)) -> PI <= M_PI ->
  wf RHO -> wf TH -> RHO <> Emp -> (exists v w, In v TH /\ In w TH /\ v <> w) -> (x <> 0 \/ y <> 0) -> in2 x y x_in -> in2 x y x_out ->
  exists x_in' x_out', sep_polar E D mid M_PI RHO TH x_in x_out = Some (x_in', x_out') /\ (sector RHO TH x y -> in2 x y x_out') /\ (~ sector RHO TH x y -> in2 x y x_in').
Proof.
  intros E D mid M_PI RHO TH x y xi xo HE H1 H2 H3 HM WR WT NR (v & w & Hv & Hw & Nvw) N0 Hi Ho.
  assert (TH <> Emp) as NT by (intros ->; contradiction).
  assert (O : forall t, exists u, In u TH /\ u <> t) by (intros t; destruct (Req_dec v t) as [<-|]; [exists w; auto|exists v; auto]).
  destruct (C95_contracts E D HE mid M_PI RHO TH xi xo WT NR NT) as (i' & o' & ES & _). exists i', o'. split; auto. split.
  - intros (r & t & R0 & Hr & Ht & Ex & Ey). assert (0 < r) as P0 by (destruct R0 as [|<-]; auto; rewrite Rmult_0_l in *; lra).
    destruct (C95_out_partial E D HE H1 H2 H3 mid M_PI x y r t RHO TH xi xo) as (i2 & o2 & E2 & K); auto. rewrite ES in E2. injection E2 as <- <-. exact K.
  - intros NS. destruct (polar_from (limit mid M_PI TH) x y N0) as (r & t & P0 & Ex & Ey & L).
    destruct (C95_in_partial E D HE H1 H2 H3 mid M_PI x y r t RHO TH xi xo) as (i2 & o2 & E2 & K); auto; [lra|]. rewrite ES in E2. injection E2 as <- <-. exact K.
Qed.
(** a sector [1,2] x [-1,1] and two boxes: the point (3/2,0) stays in [x_out], the point (0,3/2) in [x_in] *)
Example C95_example : exists x_in' x_out', sep_polar ibexE 1 mid0 m_pi (I2 1 2) (I2 (-1) 1) (bnd 0 10, bnd (-1) 2) (bnd 0 10, bnd (-1) 2) = Some (x_in', x_out') /\
  in2 (3/2) 0 x_out' /\ in2 0 (3/2) x_in'.
Proof.
  pose proof PI_RGT_0. pose proof m_pi_gt. pose proof PI2_3_2 as P2. pose proof PI_4 as P4.
  destruct (C95_out_partial ibexE 1 ibexE_ok ibexE_sqr_wf ibexE_sin ibexE_mul mid0 m_pi (3/2) 0 (3/2) 0 (I2 1 2) (I2 (-1) 1) (bnd 0 10, bnd (-1) 2) (bnd 0 10, bnd (-1) 2)) as (i & o & ES & K).
  1,2: cbn; lra. 1,2: split; apply In_bnd; lra. 1,2: cbn; lra. lra. rewrite cos_0; lra. rewrite sin_0; lra. intros _; right; exists 1; split; [cbn; lra|lra].
  exists i, o. split; auto. split; auto.
  destruct (C95_in_partial ibexE 1 ibexE_ok ibexE_sqr_wf ibexE_sin ibexE_mul mid0 m_pi 0 (3/2) (3/2) (PI/2) (I2 1 2) (I2 (-1) 1) (bnd 0 10, bnd (-1) 2) (bnd 0 10, bnd (-1) 2)) as (i2 & o2 & E2 & K2).
  1,2: cbn; lra. 1,2: discriminate. 1,2: split; apply In_bnd; lra. lra. rewrite cos_PI2; lra. rewrite sin_PI2; lra.
  - unfold limit, mid0, I2. unfold m_pi in *. lra.
  - intros (r & t & R0 & _ & Ht & Ex & Ey). cbn in Ht. assert (0 < cos t) by (apply cos_gt_0; lra). assert (r = 0) as -> by (destruct R0 as [|<-]; auto; nra). lra.
  - lra.
  - rewrite ES in E2. injection E2 as <- <-. exact K2.
Qed.
(** the hypotheses of [C95_separator_partial], with a rounded up pi *)
Example C95_separator_example : PI <= 4 /\ exists x_in' x_out', sep_polar ibexE 1 mid0 4 (I2 1 2) (I2 (-1) 1) (bnd (-10) 10, bnd (-1) 2) (bnd (-10) 10, bnd (-1) 2) = Some (x_in', x_out') /\
  in2 (-3/2) 0 x_in'.
Proof.
  pose proof PI_RGT_0. pose proof PI2_3_2 as P2. pose proof PI_4 as P4. split; [lra|].
  destruct (C95_separator_partial ibexE 1 mid0 4 (I2 1 2) (I2 (-1) 1) (-3/2) 0 (bnd (-10) 10, bnd (-1) 2) (bnd (-10) 10, bnd (-1) 2) ibexE_ok ibexE_sqr_wf ibexE_sin ibexE_mul) as (i & o & ES & _ & K).
  lra. 1,2: cbn; lra. discriminate. exists (-1), 1; cbn; lra. left; lra. 1,2: split; apply In_bnd; lra.
  exists i, o. split; auto. apply K. intros (r & t & R0 & _ & Ht & Ex & _). cbn in Ht. assert (0 < cos t) by (apply cos_gt_0; lra). nra.
Qed.

Print Assumptions C26_contracts.
Print Assumptions C95_contracts.
Print Assumptions C95_out_partial.
Print Assumptions C95_in_partial.
Print Assumptions C95_separator_partial.
Print Assumptions C95_in_refuted.
Print Assumptions C95_out_refuted.
