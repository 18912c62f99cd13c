(** * Properties C24, C25 and C27: static contractors *)

From Coq Require Import Reals Lra Lia Bool List Arith.
Import ListNotations.
From Verif Require Import Itv Arith PropsDyn2 Static.
Open Scope R_scope.

(** ** Boxes *)
Lemma b_inter_in p a b : Forall2 In p a -> Forall2 In p b -> Forall2 In p (b_inter a b).
Proof.
  intros Ha Hb. unfold b_inter.
  destruct (b_is_empty a) eqn:Ea; [auto|].
  destruct (b_is_empty b) eqn:Eb. { destruct b as [|[|? ?] b]; cbn in Eb; try discriminate. inversion Hb; subst. cbn in *; tauto. }
  assert (Forall2 In p (map2 inter a b)) as H.
  { clear Ea Eb. revert b Hb. induction Ha as [|x i p a Hx Ha IH]; intros b Hb; inversion Hb; subst; cbn; constructor; auto. apply In_inter; auto. }
  destruct (existsb is_empty (map2 inter a b)) eqn:Ex; auto.
  apply existsb_exists in Ex. destruct Ex as (i & Hi & He). apply is_empty_true in He. subst i. exfalso.
  clear - H Hi. induction H; cbn in Hi; [tauto|]. destruct Hi as [ -> |Hi]; auto.
Qed.
Lemma F2_sub_refl (l : box) : Forall2 sub l l.
Proof. induction l; constructor; auto using sub_refl. Qed.
Lemma set_empty_sub a : Forall2 sub (b_set_empty a) a.
Proof. induction a; cbn; constructor; auto using sub_Emp. Qed.
Lemma b_inter_sub a b : length a = length b -> Forall2 sub (b_inter a b) a.
Proof.
  intros L. unfold b_inter. destruct (b_is_empty a); [apply F2_sub_refl|]. destruct (b_is_empty b); [apply set_empty_sub|].
  destruct (existsb _ _); [apply set_empty_sub|]. revert b L. induction a as [|x a IH]; intros [|y b] L; cbn in *; try discriminate; constructor; auto using sub_inter_l.
Qed.

Lemma b_hull_in_l p a b : length a = length b -> Forall2 In p a -> Forall2 In p (b_hull a b).
Proof.
  intros L H. unfold b_hull. destruct (b_is_empty b); [auto|]. destruct (b_is_empty a) eqn:Ea.
  - destruct a as [|[|] a]; cbn in Ea; try discriminate. inversion H; subst. cbn in *; tauto.
  - clear Ea. revert b L. induction H; intros [|y' b] L; cbn in *; try discriminate; constructor; auto. apply In_hull_l; auto.
Qed.
Lemma b_hull_in_r p a b : length a = length b -> Forall2 In p b -> Forall2 In p (b_hull a b).
Proof.
  intros L H. unfold b_hull. destruct (b_is_empty b) eqn:Eb.
  - destruct b as [|[|] b]; cbn in Eb; try discriminate. inversion H; subst. cbn in *; tauto.
  - destruct (b_is_empty a); [auto|]. clear Eb. revert a L. induction H; intros [|y' a] L; cbn in *; try discriminate; constructor; auto. apply In_hull_r; auto.
Qed.
Lemma b_hull_len a b : length a = length b -> length (b_hull a b) = length a.
Proof.
  intros L. unfold b_hull. destruct (b_is_empty b); [auto|]. destruct (b_is_empty a); [auto|].
  revert b L. induction a as [|x a IH]; intros [|y b] L; cbn in *; try discriminate; auto.
Qed.
Lemma b_hull_sub a b x : Forall wf a -> Forall wf b -> Forall2 sub a x -> Forall2 sub b x -> Forall2 sub (b_hull a b) x.
Proof.
  intros Wa Wb Ha Hb. unfold b_hull. destruct (b_is_empty b); [auto|]. destruct (b_is_empty a); [auto|].
  revert b Wb Hb. induction Ha as [|i j a x Hi Ha IH]; intros b Wb Hb; inversion Hb; subst; cbn; constructor.
  - inversion Wa; inversion Wb; subst. apply hull_least; auto.
  - inversion Wa; inversion Wb; subst. apply IH; auto.
Qed.
Lemma b_hull_wf a b : Forall wf a -> Forall wf b -> Forall wf (b_hull a b).
Proof.
  intros Wa Wb. unfold b_hull. destruct (b_is_empty b); [auto|]. destruct (b_is_empty a); [auto|].
  revert b Wb. induction Wa as [|i a Hi Wa IH]; intros b Wb; [constructor|]. inversion Wb; subst; cbn; constructor; auto using wf_hull.
Qed.
Lemma b_inter_wf a b : Forall wf a -> Forall wf (b_inter a b).
Proof.
  intros W. unfold b_inter. assert (Forall wf (b_set_empty a)) by (clear W; induction a; cbn; constructor; auto; exact I).
  destruct (b_is_empty a); [auto|]. destruct (b_is_empty b); [auto|]. destruct (existsb _ _); [auto|].
  clear. revert b. induction a as [|x a IH]; intros [|y b]; cbn; constructor; auto using wf_inter.
Qed.

(** ** C24: union *)
Theorem C24_union : forall Ps cs nb x p, Forall2 keeps Ps cs -> Forall contracts cs -> length x = nb ->
  Forall2 In p x -> (exists P, List.In P Ps /\ P p) -> Forall2 In p (ctc_union nb cs x).
Proof.
  intros Ps cs nb x p HK HC L Hp HP. unfold ctc_union.
  assert (forall acc, length acc = nb -> Forall2 In p acc \/ (exists P, List.In P Ps /\ P p) ->
    Forall2 In p (fold_left (fun result c => b_hull result (c x)) cs acc)) as H; [|apply H; [apply repeat_length|auto]].
  clear HP. induction HK as [|P c Ps cs Hk HK IH]; intros acc La H; cbn.
  - destruct H as [H|(P & [] & _)]; auto.
  - inversion HC as [|? ? Hc HC']; subst. pose proof (F2_len _ _ _ (Hc x)) as Lc.
    assert (length acc = length (c x)) as L2 by congruence.
    apply IH; auto; [rewrite b_hull_len; auto|].
    destruct H as [H|(Q & [ <- |HQ] & H)].
    + left. apply b_hull_in_l; auto.
    + left. apply b_hull_in_r; auto.
    + right. exists Q. auto.
Qed.
Theorem C24_union_contracts : forall cs nb x, Forall contracts cs -> Forall gives_boxes cs -> length x = nb -> Forall wf x ->
  Forall2 sub (ctc_union nb cs x) x /\ Forall wf (ctc_union nb cs x).
Proof.
  intros cs nb x HC HW L Wx. unfold ctc_union.
  assert (forall acc, Forall2 sub acc x -> Forall wf acc ->
    Forall2 sub (fold_left (fun result c => b_hull result (c x)) cs acc) x /\ Forall wf (fold_left (fun result c => b_hull result (c x)) cs acc)) as H.
  { induction cs as [|c cs IH]; intros acc Ha Wa; cbn; [auto|].
    inversion HC; inversion HW; subst. apply IH; auto; [apply b_hull_sub|apply b_hull_wf]; auto. }
  apply H.
  - clear - L. revert x L. induction nb; intros [|i x] L; cbn in *; try discriminate; constructor; auto using sub_Emp.
  - clear. induction nb; cbn; constructor; auto. exact I.
Qed.

(** ** C24: product *)
(** what the product of the constraints means for a point *)
Fixpoint in_product (ns : list nat) (Ps : list (list R -> Prop)) (p : list R) : Prop :=
  match ns, Ps with n :: ns, P :: Ps => P (firstn n p) /\ in_product ns Ps (skipn n p) | _, _ => True end.
Lemma F2_firstn {A B} (P : A -> B -> Prop) n : forall l m, Forall2 P l m -> Forall2 P (firstn n l) (firstn n m).
Proof. induction n; intros l m H; [constructor|]. destruct H; cbn; constructor; auto. Qed.
Lemma F2_skipn {A B} (P : A -> B -> Prop) n : forall l m, Forall2 P l m -> Forall2 P (skipn n l) (skipn n m).
Proof. induction n; intros l m H; [auto|]. destruct H; cbn; auto. Qed.
Lemma cart_loop_spec : forall cs pre rest, (forall n c, List.In (n, c) cs -> contracts c) ->
  (fold_right (fun nc s => fst nc + s) 0 cs <= length rest)%nat ->
  cart_prod_loop cs (length pre) (pre ++ rest) =
    pre ++ (fix go cs x := match cs with [] => x | (n, c) :: cs => c (firstn n x) ++ go cs (skipn n x) end) cs rest.
Proof.
  induction cs as [|[n c] cs IH]; intros pre rest HC L; cbn [cart_prod_loop]; [auto|].
  cbn in L. rewrite skipn_app, firstn_app, skipn_all, Nat.sub_diag, firstn_all, firstn_O, app_nil_r. cbn [app skipn].
  rewrite skipn_app, skipn_all2 by lia. replace (length pre + n - length pre)%nat with n by lia. cbn [app].
  assert (length (c (firstn n rest)) = n) as Lc.
  { rewrite (F2_len _ _ _ (HC n c (or_introl eq_refl) (firstn n rest))). rewrite firstn_length. lia. }
  replace (length pre + n)%nat with (length (pre ++ c (firstn n rest))) by (rewrite app_length; lia).
  rewrite app_assoc, IH.
  - rewrite <- app_assoc. reflexivity.
  - intros; eapply HC; right; eauto.
  - rewrite skipn_length. lia.
Qed.
Theorem C24_cart_prod : forall Ps cs x p, Forall2 (fun P c => keeps P (snd c)) Ps cs -> (forall n c, List.In (n, c) cs -> contracts c) ->
  length x = fold_right (fun nc s => fst nc + s)%nat 0%nat cs ->
  Forall2 In p x -> in_product (map fst cs) Ps p -> Forall2 In p (ctc_cart_prod cs x).
Proof.
  intros Ps cs x p HK HC L Hp HP. unfold ctc_cart_prod. change 0%nat with (length (@nil itv)). change x with ([] ++ x).
  rewrite cart_loop_spec; auto; [|lia]. cbn [app]. clear L HC. revert x p Hp HP. induction HK as [|P [n c] Ps cs Hk HK IH]; intros x p Hp HP; [auto|].
  cbn in HP. destruct HP as [HP1 HP2]. rewrite <- (firstn_skipn n p). apply Forall2_app.
  - apply Hk; auto. apply F2_firstn; auto.
  - apply IH; auto. apply F2_skipn; auto.
Qed.
Theorem C24_cart_prod_contracts : forall cs x, (forall n c, List.In (n, c) cs -> contracts c) ->
  length x = fold_right (fun nc s => fst nc + s)%nat 0%nat cs -> Forall2 sub (ctc_cart_prod cs x) x.
Proof.
  intros cs x HC L. unfold ctc_cart_prod. change 0%nat with (length (@nil itv)). change x with ([] ++ x) at 1.
  rewrite cart_loop_spec; auto; [|lia]. cbn [app]. clear L. revert x HC. induction cs as [|[n c] cs IH]; intros x HC; [apply F2_sub_refl|].
  rewrite <- (firstn_skipn n x) at 3. apply Forall2_app; [eapply HC; left; reflexivity|]. apply IH. intros; eapply HC; right; eauto.
Qed.

(** ** C24: box and constellation *)
Theorem C24_box : forall b, keeps (fun p => Forall2 In p b) (ctc_box b).
Proof. intros b x p Hx Hb. apply b_inter_in; auto. Qed.
Theorem C24_box_contracts : forall b x, length x = length b -> Forall2 sub (ctc_box b x) x.
Proof. intros. apply b_inter_sub; auto. Qed.
(** the point is in one of the beacons of the map *)
Definition in_map (m : list box) (p : list R) : Prop := exists mj, List.In mj m /\ Forall2 In p (firstn 2 mj).
Theorem C24_constell : forall m x p, length x = 2%nat -> (forall mj, List.In mj m -> (2 <= length mj)%nat) ->
  Forall2 In p x -> in_map m p -> Forall2 In p (ctc_constell m x).
Proof.
  intros m x p Lx Lm Hp Hm. unfold ctc_constell.
  assert (forall acc, length acc = 2%nat -> Forall2 In p acc \/ in_map m p ->
    Forall2 In p (fold_left (fun u mj => b_hull u (b_inter x (firstn 2 mj))) m acc)) as H; [|apply H; auto].
  clear Hm. induction m as [|mj m IH]; intros acc La H; cbn -[firstn].
  - destruct H as [H|(? & [] & _)]; auto.
  - assert (length (b_inter x (firstn 2 mj)) = 2%nat) as L1.
    { rewrite (F2_len _ _ _ (b_inter_sub x (firstn 2 mj) ltac:(rewrite firstn_length; specialize (Lm mj (or_introl eq_refl)); lia))). auto. }
    apply IH.
    + intros; apply Lm; right; auto.
    + rewrite b_hull_len; congruence.
    + destruct H as [H|(mk & [ <- |Hk] & H)].
      * left. apply b_hull_in_l; auto; congruence.
      * left. apply b_hull_in_r; [congruence|]. apply b_inter_in; auto.
      * right. exists mk. auto.
Qed.
Theorem C24_constell_contracts : forall m x, length x = 2%nat -> Forall wf x -> (forall mj, List.In mj m -> (2 <= length mj)%nat) ->
  Forall2 sub (ctc_constell m x) x.
Proof.
  intros m x Lx Wx Lm. unfold ctc_constell.
  assert (forall acc, Forall wf acc -> Forall2 sub acc x -> Forall2 sub (fold_left (fun u mj => b_hull u (b_inter x (firstn 2 mj))) m acc) x) as H.
  { induction m as [|mj m IH]; intros acc Wa Ha; cbn -[firstn]; [auto|]. apply IH.
    - intros; apply Lm; right; auto.
    - apply b_hull_wf; auto. apply b_inter_wf; auto.
    - apply b_hull_sub; auto; [apply b_inter_wf; auto|]. apply b_inter_sub. rewrite firstn_length. specialize (Lm mj (or_introl eq_refl)). lia. }
  apply H; [repeat constructor|]. destruct x as [|? [|? [|? ?]]]; try discriminate. repeat constructor; apply sub_Emp.
Qed.

(** ** C24: segment *)
(** the constraints of codac_CtcSegment.cpp 41-47 *)
Definition seg_f (p : list R) : Prop :=
  match p with [x0; x1; a0; a1; b0; b1] => (b0 - a0) * (a1 - x1) - (b1 - a1) * (a0 - x0) = 0 | _ => False end.
Definition seg_g (p : list R) : Prop :=
  match p with [x0; x1; a0; a1; b0; b1] =>
    Rmin a0 b0 - x0 <= 0 /\ Rmin a1 b1 - x1 <= 0 /\ x0 - Rmax a0 b0 <= 0 /\ x1 - Rmax a1 b1 <= 0 | _ => False end.
(** the point is on the segment *)
Definition on_segment (x0 x1 a0 a1 b0 b1 : R) : Prop :=
  exists s, 0 <= s <= 1 /\ x0 = a0 + s * (b0 - a0) /\ x1 = a1 + s * (b1 - a1).
Lemma minmax_conv a b s : 0 <= s <= 1 -> Rmin a b <= a + s * (b - a) <= Rmax a b.
Proof.
  intros Hs. destruct (Rle_dec a b).
  - rewrite Rmin_left, Rmax_right by auto. split; nra.
  - rewrite Rmin_right, Rmax_left by lra. split; nra.
Qed.
Lemma segment_sat x0 x1 a0 a1 b0 b1 : on_segment x0 x1 a0 a1 b0 b1 -> seg_f [x0; x1; a0; a1; b0; b1] /\ seg_g [x0; x1; a0; a1; b0; b1].
Proof.
  intros (s & Hs & -> & ->). pose proof (minmax_conv a0 b0 s Hs). pose proof (minmax_conv a1 b1 s Hs). cbn. split; [ring|]. lra.
Qed.
(** both constraints together describe the segment and nothing else *)
Lemma sat_segment x0 x1 a0 a1 b0 b1 : seg_f [x0; x1; a0; a1; b0; b1] -> seg_g [x0; x1; a0; a1; b0; b1] -> on_segment x0 x1 a0 a1 b0 b1.
Proof.
  cbn. intros Hf (G1 & G2 & G3 & G4).
  assert (forall a b x, Rmin a b - x <= 0 -> x - Rmax a b <= 0 -> a <> b -> 0 <= (x - a) / (b - a) <= 1) as HS.
  { intros a b x H1 H2 Hn. destruct (Rlt_dec a b).
    - rewrite Rmin_left in H1 by lra. rewrite Rmax_right in H2 by lra. split.
      + apply Rmult_le_reg_r with (b - a); [lra|]. unfold Rdiv. rewrite Rmult_assoc, Rinv_l by lra. lra.
      + apply Rmult_le_reg_r with (b - a); [lra|]. unfold Rdiv. rewrite Rmult_assoc, Rinv_l by lra. lra.
    - rewrite Rmin_right in H1 by lra. rewrite Rmax_left in H2 by lra. replace ((x - a) / (b - a)) with ((a - x) / (a - b)) by (field; lra). split.
      + apply Rmult_le_reg_r with (a - b); [lra|]. unfold Rdiv. rewrite Rmult_assoc, Rinv_l by lra. lra.
      + apply Rmult_le_reg_r with (a - b); [lra|]. unfold Rdiv. rewrite Rmult_assoc, Rinv_l by lra. lra. }
  destruct (Req_dec a0 b0) as [E0|N0].
  - destruct (Req_dec a1 b1) as [E1|N1].
    + exists 0. split; [lra|]. subst b0 b1. rewrite Rmin_left in G1, G2 by lra. rewrite Rmax_left in G3, G4 by lra. lra.
    + exists ((x1 - a1) / (b1 - a1)). split; [apply HS; auto|]. split; [|field; lra].
      subst b0. rewrite Rmin_left in G1 by lra. rewrite Rmax_left in G3 by lra. lra.
  - exists ((x0 - a0) / (b0 - a0)). split; [apply HS; auto|]. split; [field; lra|].
    apply Rmult_eq_reg_l with (b0 - a0); [|lra]. transitivity ((b0 - a0) * a1 + (b1 - a1) * (x0 - a0)); [lra|field; lra].
Qed.
Lemma In_not_empty p b : Forall2 In p b -> b_is_empty b = false.
Proof. intros H. destruct b as [|[|] b]; cbn in *; auto. inversion H; subst. cbn in *; tauto. Qed.
Theorem C24_segment : forall cf cg ax ay bx by_ x p0 p1, keeps seg_f cf -> keeps seg_g cg ->
  Forall2 In [p0; p1] x -> on_segment p0 p1 ax ay bx by_ -> Forall2 In [p0; p1] (ctc_segment2 cf cg ax ay bx by_ x).
Proof.
  intros cf cg ax ay bx by_ x p0 p1 Kf Kg Hp Hs. destruct (segment_sat _ _ _ _ _ _ Hs) as [Sf Sg].
  inversion Hp as [|? i0 ? ? H0 Hp1]; subst. inversion Hp1 as [|? i1 ? ? H1 Hp2]; subst. inversion Hp2; subst.
  unfold ctc_segment2. cbn [firstn app].
  assert (Forall2 In [p0; p1; ax; ay; bx; by_] [i0; i1; pt ax; pt ay; pt bx; pt by_]) as HX.
  { repeat (constructor; auto); cbn; lra. }
  pose proof (Kf _ _ HX Sf) as H2. rewrite (In_not_empty _ _ H2).
  pose proof (Kg _ _ H2 Sg) as H3. rewrite (In_not_empty _ _ H3).
  apply (F2_firstn _ 2) in H3. exact H3.
Qed.
Theorem C24_segment_contracts : forall cf cg ax ay bx by_ i0 i1, contracts cf -> contracts cg ->
  Forall2 sub (ctc_segment2 cf cg ax ay bx by_ [i0; i1]) [i0; i1].
Proof.
  intros cf cg ax ay bx by_ i0 i1 Cf Cg. unfold ctc_segment2. cbn [firstn app].
  set (X := [i0; i1; pt ax; pt ay; pt bx; pt by_]). destruct (b_is_empty (cf X)); [apply set_empty_sub|].
  destruct (b_is_empty (cg (cf X))); [apply set_empty_sub|].
  assert (Forall2 sub (cg (cf X)) X) as H.
  { assert (forall l m, Forall2 sub l m -> forall n, Forall2 sub m n -> Forall2 sub l n) as HT.
    { induction 1; intros n Hn; inversion Hn; subst; constructor; eauto using sub_trans. }
    eapply HT; [apply Cg|apply Cf]. }
  apply (F2_firstn _ 2) in H. exact H.
Qed.

(** ** C25 *)
Section Dist.
  Variable E : elem.
  Hypothesis HE : elem_ok E.
  Theorem C25_no_loss : forall ax ay bx by_ d Ax Ay Bx By D,
    In ax Ax -> In ay Ay -> In bx Bx -> In by_ By -> In d D -> d = sqrt ((ax - bx)^2 + (ay - by_)^2) ->
    let '(Ax', Ay', Bx', By', D') := ctc_dist E Ax Ay Bx By D in
    In ax Ax' /\ In ay Ay' /\ In bx Bx' /\ In by_ By' /\ In d D'.
  Proof.
    intros ax ay bx by_ d Ax Ay Bx By D Hax Hay Hbx Hby Hd Ed. unfold ctc_dist.
    pose proof (ar_ok E HE) as HA.
    set (i1 := ineg _ Bx). assert (In (- bx) i1) as H1 by (apply ineg_in; auto).
    set (i2 := iadd _ Ax i1). assert (In (ax + - bx) i2) as H2 by (apply iadd_in; auto).
    set (i3 := isqr E i2). assert (In ((ax + - bx) * (ax + - bx)) i3) as H3 by (apply isqr_in; auto).
    set (i4 := ineg _ By). assert (In (- by_) i4) as H4 by (apply ineg_in; auto).
    set (i5 := iadd _ Ay i4). assert (In (ay + - by_) i5) as H5 by (apply iadd_in; auto).
    set (i6 := isqr E i5). assert (In ((ay + - by_) * (ay + - by_)) i6) as H6 by (apply isqr_in; auto).
    set (i7 := iadd _ i3 i6). set (v3 := (ax + - bx) * (ax + - bx)) in *. set (v6 := (ay + - by_) * (ay + - by_)) in *.
    assert (In (v3 + v6) i7) as H7 by (apply iadd_in; auto).
    assert (0 <= v3) as P3 by apply (Rle_0_sqr (ax + - bx)). assert (0 <= v6) as P6 by apply (Rle_0_sqr (ay + - by_)).
    assert (d = sqrt (v3 + v6)) as Ed' by (rewrite Ed; f_equal; unfold v3, v6; ring).
    set (d1 := inter D _). assert (In d d1) as Hd1 by (apply In_inter; split; auto; rewrite Ed'; apply isqrt_in; auto; lra).
    set (j7 := inter i7 _). assert (In (v3 + v6) j7) as J7.
    { apply In_inter; split; auto. replace (v3 + v6) with (d * d) by (rewrite Ed'; apply sqrt_sqrt; lra). apply isqr_in; auto. }
    set (j3 := inter i3 _). assert (In v3 j3) as J3.
    { apply In_inter; split; auto. replace v3 with (v3 + v6 - v6) by ring. apply isub_in; auto. }
    set (j6 := inter i6 _). assert (In v6 j6) as J6.
    { apply In_inter; split; auto. replace v6 with (v3 + v6 - v3) by ring. apply isub_in; auto. }
    set (j5 := ibwd_sqr E j6 i5). assert (In (ay + - by_) j5) as J5 by (apply ibwd_sqr_in; auto).
    set (ay1 := inter Ay _). assert (In ay ay1) as Ha1.
    { apply In_inter; split; auto. replace ay with (ay + - by_ - - by_) at 1 by ring. apply isub_in; auto. }
    set (j4 := inter i4 _). assert (In (- by_) j4) as J4.
    { apply In_inter; split; auto. replace (- by_) with (ay + - by_ - ay) by ring. apply isub_in; auto. }
    set (by1 := inter By _). assert (In by_ by1) as Hb1.
    { apply In_inter; split; auto. replace by_ with (- - by_) by ring. apply ineg_in; auto. }
    set (j2 := ibwd_sqr E j3 i2). assert (In (ax + - bx) j2) as J2 by (apply ibwd_sqr_in; auto).
    set (ax1 := inter Ax _). assert (In ax ax1) as Ha2.
    { apply In_inter; split; auto. replace ax with (ax + - bx - - bx) at 1 by ring. apply isub_in; auto. }
    set (j1 := inter i1 _). assert (In (- bx) j1) as J1.
    { apply In_inter; split; auto. replace (- bx) with (ax + - bx - ax) by ring. apply isub_in; auto. }
    set (bx1 := inter Bx _). assert (In bx bx1) as Hb2.
    { apply In_inter; split; auto. replace bx with (- - bx) by ring. apply ineg_in; auto. }
    auto 10.
  Qed.
  Theorem C25_contracts : forall Ax Ay Bx By D,
    let '(Ax', Ay', Bx', By', D') := ctc_dist E Ax Ay Bx By D in
    sub Ax' Ax /\ sub Ay' Ay /\ sub Bx' Bx /\ sub By' By /\ sub D' D.
  Proof. intros. unfold ctc_dist. repeat split; apply sub_inter_l. Qed.
End Dist.

(** ** C27 *)
(** [f] is an interval extension of the function [g] on points *)
Definition extends (f : box -> box) (g : list R -> list R) : Prop := forall p x, Forall2 In p x -> Forall2 In (g p) (f x).
(** the statement one expects *)
Definition transform_keeps (ctc ffwd fbwd : box -> box) : Prop :=
  forall P g h, keeps P ctc -> extends ffwd g -> extends fbwd h -> (forall p, h (g p) = p) ->
  forall x p, Forall2 In p x -> P (g p) -> Forall2 In p (ctc_transform ctc ffwd fbwd x).
(** translation by 10 and no constraint: [0,1] becomes empty *)
Definition shift_box (d : R) (x : box) : box := map (fun i => xadd i (pt d)) x.
Lemma shift_extends d : extends (shift_box d) (map (fun v => v + d)).
Proof.
  intros p x H. induction H; cbn; constructor; auto. apply (iadd_in exact exact_ok); auto. cbn; lra.
Qed.
Theorem C27_refuted : exists ctc ffwd fbwd, ~ transform_keeps ctc ffwd fbwd.
Proof.
  exists (fun x => x), (shift_box 10), (shift_box (-10)). intros H.
  assert (Forall2 In [1] (ctc_transform (fun x => x) (shift_box 10) (shift_box (-10)) [bnd 0 1])) as H1.
  { apply (H (fun _ => True) (map (fun v => v + 10)) (map (fun v => v + -10))); auto.
    - intros b p Hb _. exact Hb.
    - apply shift_extends.
    - apply shift_extends.
    - intros p. rewrite map_map. transitivity (map (fun v => v) p); [apply map_ext; intros; ring|apply map_id].
    - constructor; [apply In_bnd; lra|constructor]. }
  revert H1. unfold ctc_transform, b_inter, bnd, mk, shift_box. rdec. cbn. rdec. cbn. intros H1. inversion H1; subst. cbn in *. tauto.
Qed.
(** It holds for the points whose image is also in the box. *)
Theorem C27_no_loss_partial : forall ctc ffwd fbwd P g h, keeps P ctc -> extends ffwd g -> extends fbwd h -> (forall p, h (g p) = p) ->
  forall x p, Forall2 In p x -> Forall2 In (g p) x -> P (g p) -> Forall2 In p (ctc_transform ctc ffwd fbwd x).
Proof.
  intros ctc ffwd fbwd P g h HK HF HB HI x p Hp Hg HP. unfold ctc_transform.
  rewrite (In_not_empty (g p)); auto. apply b_inter_in; auto. rewrite <- (HI p). apply HB; auto.
Qed.
Theorem C27_contracts : forall ctc ffwd fbwd x, length (fbwd x) = length x -> Forall2 sub (ctc_transform ctc ffwd fbwd x) x.
Proof. intros. unfold ctc_transform. destruct (b_is_empty _); [apply set_empty_sub|apply b_inter_sub; auto]. Qed.

(** ** An instance of the elementary functions, and examples *)
Definition nonempty (r i : itv) : itv := match i with Emp => Emp | _ => r end.
Definition xsqrt (X : itv) : itv :=
  match X with
  | Emp => Emp
  | Itv l h => Itv (Some (match l with Some a => sqrt a | None => 0 end)) (option_map sqrt h)
  end.
Definition coarse : elem := {|
  ar := exact; idiv := fun X Y => nonempty (nonempty ALL X) Y; isqr := fun X => xmul X X; isqrt := xsqrt;
  ibwd_sqr := fun Y X => hull (inter X (xsqrt Y)) (inter X (xneg (xsqrt Y)));
  ibwd_add := fun Y X1 X2 => (inter X1 (xsub Y X2), inter X2 (xsub Y X1));
  icos := nonempty (bnd (-1) 1); isin := nonempty (bnd (-1) 1); itan := nonempty ALL; iatan := nonempty ALL; iint := fun X => X |}.
Lemma nonempty_in x X r : In x X -> nonempty r X = r.
Proof. destruct X; cbn; tauto. Qed.
Lemma xsqrt_in x X : In x X -> 0 <= x -> In (sqrt x) (xsqrt X).
Proof.
  destruct X as [|l h]; cbn; [tauto|]. intros [H1 H2] H. split.
  - destruct l; cbn in *; [apply sqrt_le_1_alt; auto|apply sqrt_pos].
  - destruct h; cbn in *; auto. apply sqrt_le_1_alt; auto.
Qed.
Lemma coarse_ok : elem_ok coarse.
Proof.
  constructor; cbn.
  - exact exact_ok.
  - intros x y X Y HX HY _. rewrite (nonempty_in y Y), (nonempty_in x X); auto. apply In_ALL.
  - intros x X H. apply (imul_in exact exact_ok); auto.
  - intros. apply xsqrt_in; auto.
  - intros x X Y HX HY. assert (0 <= x * x) as H0 by apply (Rle_0_sqr x). pose proof (xsqrt_in _ _ HY H0) as H.
    destruct (Rle_dec 0 x).
    + apply In_hull_l, In_inter. split; auto. rewrite sqrt_square in H; auto.
    + apply In_hull_r, In_inter. split; auto. replace (x * x) with ((- x) * (- x)) in H by ring. rewrite sqrt_square in H by lra.
      replace x with (- - x) by ring. apply (ineg_in exact exact_ok); auto.
  - intros X Y. apply hull_least; auto using wf_inter, sub_inter_l.
  - intros Y. reflexivity.
  - intros x1 x2 X1 X2 Y H1 H2 HY. split; apply In_inter; split; auto.
    + replace x1 with (x1 + x2 - x2) by ring. apply (isub_in exact exact_ok); auto.
    + replace x2 with (x1 + x2 - x1) by ring. apply (isub_in exact exact_ok); auto.
  - intros x X H. rewrite (nonempty_in x); auto. apply In_bnd. apply COS_bound.
  - intros x X H. rewrite (nonempty_in x); auto. apply In_bnd. apply SIN_bound.
  - intros x X H _. rewrite (nonempty_in x); auto. apply In_ALL.
  - intros x X H. rewrite (nonempty_in x); auto. apply In_ALL.
  - intros k X H. exact H.
Qed.
(** distance between (0,0) and (3,4) *)
Example C25_example : let '(Ax', Ay', Bx', By', D') := ctc_dist coarse (bnd 0 1) (pt 0) (bnd 2 3) (pt 4) (bnd 0 10) in
  In 0 Ax' /\ In 0 Ay' /\ In 3 Bx' /\ In 4 By' /\ In 5 D'.
Proof.
  apply (C25_no_loss coarse coarse_ok 0 0 3 4 5); try (apply In_bnd; lra); try (cbn; lra).
  replace ((0 - 3)^2 + (0 - 4)^2) with (5 * 5) by ring. symmetry. apply sqrt_square. lra.
Qed.
Lemma box_keeps b : keeps (fun p => Forall2 In p b) (ctc_box b). Proof. exact (C24_box b). Qed.
(** a contractor that satisfies every hypothesis whatever the size of the box *)
Definition clip (b : box) (x : box) : box := if Nat.eqb (length x) (length b) then ctc_box b x else x.
Lemma clip_keeps b : keeps (fun p => Forall2 In p b) (clip b).
Proof. intros x p Hx Hb. unfold clip. destruct (Nat.eqb _ _); auto. apply C24_box; auto. Qed.
Lemma clip_contracts b : contracts (clip b).
Proof. intros x. unfold clip. destruct (Nat.eqb_spec (length x) (length b)); [apply C24_box_contracts; auto|apply F2_sub_refl]. Qed.
Lemma clip_boxes b : gives_boxes (clip b).
Proof. intros x W. unfold clip. destruct (Nat.eqb _ _); auto. apply b_inter_wf; auto. Qed.
Definition bA : box := [bnd 0 1; bnd 0 1].
Definition bB : box := [bnd 3 4; bnd 3 4].
Example C24_union_example : Forall2 In [3; 4] (ctc_union 2 [clip bA; clip bB] [bnd 0 5; bnd 0 5]).
Proof.
  apply (C24_union [fun p => Forall2 In p bA; fun p => Forall2 In p bB]).
  - repeat (constructor; [apply clip_keeps|]). constructor.
  - repeat (constructor; [apply clip_contracts|]). constructor.
  - reflexivity.
  - repeat (constructor; [apply In_bnd; lra|]). constructor.
  - exists (fun p => Forall2 In p bB). split; [right; left; reflexivity|]. repeat (constructor; [apply In_bnd; lra|]). constructor.
Qed.
Example C24_cart_example : Forall2 In [1; 1; 3] (ctc_cart_prod [(2%nat, clip bA); (1%nat, clip [bnd 3 4])] [bnd 0 5; bnd 0 5; bnd 0 5]).
Proof.
  apply (C24_cart_prod [fun p => Forall2 In p bA; fun p => Forall2 In p [bnd 3 4]]).
  - repeat (constructor; [apply clip_keeps|]). constructor.
  - intros n c [H|[H|[]]]; injection H as <- <-; apply clip_contracts.
  - reflexivity.
  - repeat (constructor; [apply In_bnd; lra|]). constructor.
  - cbn. repeat split; repeat (constructor; [apply In_bnd; lra|]); constructor.
Qed.
Example C24_constell_example : Forall2 In [3; 4] (ctc_constell [bA; bB] [bnd 0 5; bnd 0 5]).
Proof.
  apply C24_constell; [reflexivity| | |].
  - intros mj [ <- |[ <- |[]]]; cbn; lia.
  - repeat (constructor; [apply In_bnd; lra|]). constructor.
  - exists bB. split; [right; left; reflexivity|]. repeat (constructor; [apply In_bnd; lra|]). constructor.
Qed.
Example C24_segment_example : Forall2 In [1; 2] (ctc_segment2 (fun x => x) (fun x => x) 0 0 2 4 [bnd 0 5; bnd 0 5]).
Proof.
  apply C24_segment; try (intros b p H _; exact H).
  - repeat (constructor; [apply In_bnd; lra|]). constructor.
  - exists (1/2). repeat split; lra.
Qed.
Example C27_example : Forall2 In [1] (ctc_transform (clip [bnd 0 3]) (shift_box 1) (shift_box (-1)) [bnd 0 5]).
Proof.
  apply (C27_no_loss_partial _ _ _ (fun p => Forall2 In p [bnd 0 3]) (map (fun v => v + 1)) (map (fun v => v + -1))).
  - apply clip_keeps.
  - apply shift_extends.
  - apply shift_extends.
  - intros p. rewrite map_map. transitivity (map (fun v => v) p); [apply map_ext; intros; ring|apply map_id].
  - constructor; [apply In_bnd; lra|constructor].
  - constructor; [apply In_bnd; lra|constructor].
  - constructor; [apply In_bnd; lra|constructor].
Qed.
Print Assumptions C24_union.
Print Assumptions C24_union_contracts.
Print Assumptions C24_cart_prod.
Print Assumptions C24_cart_prod_contracts.
Print Assumptions C24_box.
Print Assumptions C24_box_contracts.
Print Assumptions C24_constell.
Print Assumptions C24_constell_contracts.
Print Assumptions C24_segment.
Print Assumptions C24_segment_contracts.
Print Assumptions C25_no_loss.
Print Assumptions C25_contracts.
Print Assumptions C27_refuted.
Print Assumptions C27_no_loss_partial.
Print Assumptions C27_contracts.
