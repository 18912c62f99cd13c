(** * CtcHull and SepUnionBbox (C112, C113) *)

From Coq Require Import Reals Lra Lia Bool List Arith Classical_Prop.
Import ListNotations.
From Verif Require Import Itv PropsDyn2 Tube TubeFacts Static PropsStatic Sivia PropsSivia PropsSiviaTerm Concrete PropsSiviaEx
  Paving PropsPaving3 Separators PropsSep PropsSep2 SepProj PropsSepProj PropsSepProj2 PropsPSet SepHull.
Open Scope R_scope.

(** ** CtcHull *)
(** A part of [x0] of width at most [eps] that the separator leaves undecided: what remains of some box in both results *)
Definition undecided (n : nat) (sep : sep_t) (x0 : box) (eps : R) (u : box) : Prop :=
  good n u /\ exists X, good n X /\ Forall2 sub X x0 /\ b_is_empty X = false /\ b_is_empty u = false /\
    (forall p, inb p u <-> inb p (fst (sep X X)) /\ inb p (snd (sep X X))) /\
    (forall p q k, inb p u -> inb q u -> Rabs (nth k p 0 - nth k q 0) <= eps).

Lemma max_diam_near : forall u d, max_diam u = Some d -> 0 <= d /\ forall p q k, inb p u -> inb q u -> Rabs (nth k p 0 - nth k q 0) <= d.
Proof.
  induction u as [|i u IH]; intros d E; cbn in E.
  - injection E as <-. split; [lra|]. intros p q k Hp Hq. inversion Hp; inversion Hq; subst. destruct k; cbn; rewrite Rminus_0_r, Rabs_R0; lra.
  - destruct (match i with Emp => Some 0 | Itv (Some a) (Some b) => Some (b - a) | _ => None end) as [w|] eqn:Ew; [|discriminate].
    destruct (max_diam u) as [e|] eqn:Eu; [|discriminate]. injection E as <-. destruct (IH e eq_refl) as [P Q].
    pose proof (Rmax_l w e). pose proof (Rmax_r w e). split; [lra|]. intros p q k Hp Hq. inversion Hp as [|a ? p' ? Ha Hp']; inversion Hq as [|b ? q' ? Hb Hq']; subst.
    destruct k as [|k]; cbn [nth]; [|specialize (Q p' q' k Hp' Hq'); lra].
    destruct i as [|[l|] [h|]]; try discriminate; [destruct Ha|]. injection Ew as <-. cbn in Ha, Hb. apply Rle_trans with (h - l); auto. apply Rabs_le. lra.
Qed.
Lemma subset_in X Y p : length X = length Y -> b_is_subset X Y = true -> inb p X -> inb p Y.
Proof.
  intros L H Hp. unfold b_is_subset in H. rewrite (inb_empty _ _ Hp) in H. destruct (b_is_empty Y); [discriminate|]. eapply subset_all; eauto.
Qed.
Lemma box_eqb_eq : forall a b, box_eqb a b = true -> a = b.
Proof.
  induction a as [|i a IH]; intros [|j b] H; try discriminate; auto. cbn in H. apply andb_true_iff in H. destruct H as [H1 H2].
  apply itv_eqb_true in H1. f_equal; auto.
Qed.
Lemma box_closed z A p : limit A p -> (forall q, A q -> inb q z) -> inb p z.
Proof.
  intros H K. apply NNPP. intros N. destruct (box_open z p N) as (eps & P & O). destruct (H eps P) as (q & Q1 & Q2). apply (O q Q2). auto.
Qed.
Lemma good_emp n (x : box) : length x = n -> good n (repeat Emp (length x)).
Proof.
  intros L. split; [rewrite repeat_length; auto|]. split; [apply Forall_forall; intros i H; apply repeat_spec in H; subst; exact Logic.I|].
  intros E H. destruct x; cbn in *; [tauto|discriminate].
Qed.

Section Hull.
Context (n : nat) (S : list R -> Prop) (sep : sep_t) (diff : box -> box -> list box) (bis : box -> option (box * box)) (eps : R) (x0 : box).
Context (Hn : (0 < n)%nat) (HS : zsep n S sep) (HD : pdiff_lim n diff) (HB : pbis n bis).

Lemma hull_loop_spec : forall fuel lst xins r, Forall (fun X => good n X /\ Forall2 sub X x0) lst -> good n xins ->
  hull_loop diff bis sep eps fuel lst xins = HDone r ->
  good n r /\ (forall p, inb p xins -> inb p r) /\ (forall p, pending lst p -> S p -> inb p r) /\
  (forall z, length z = n -> (forall p, inb p xins -> inb p z) -> (forall p, inb p x0 -> S p -> inb p z) ->
     (forall u p, undecided n sep x0 eps u -> inb p u -> inb p z) -> forall p, inb p r -> inb p z).
Proof.
  induction fuel as [|fuel IH]; intros lst xins r F G E.
  - destruct lst; [|discriminate]. cbn in E. injection E as <-. repeat split; auto; try apply G. intros p (x & [] & _).
  - destruct lst as [|X lst]. { cbn in E. injection E as <-. repeat split; auto; try apply G. intros p (x & [] & _). }
    inversion F as [|? ? [GX SX] F']; subst. cbn [hull_loop] in E. cbv zeta in E.
    destruct (b_is_subset X xins) eqn:Es.
    { destruct (IH _ _ _ F' G E) as (A & B & C & D). split; auto. split; auto. split; auto. intros p Hp K. apply pending_cons in Hp. destruct Hp as [Hp|Hp]; auto.
      apply B. apply (subset_in X); auto. destruct GX as (LX & _), G as (Lx & _). congruence. }
    assert (EX : b_is_empty X = false) by (unfold b_is_subset in Es; destruct (b_is_empty X); auto; discriminate).
    destruct (z_good _ _ _ HS X GX EX) as [Gi Go]. destruct (z_sub _ _ _ HS X GX EX) as [Si So].
    set (xin := fst (sep X X)) in *. set (xout := snd (sep X X)) in *.
    assert (Pi : forall p, inb p xin -> inb p X) by (intros p Hp; eapply inb_sub; eauto).
    destruct HD as [HD1 HD2]. destruct (HD1 X xin GX Gi Pi) as [D1 D2].
    assert (Gd : Forall (good n) (diff X xin)) by (eapply Forall_impl; [|exact D1]; intros d [K _]; exact K).
    set (xins1 := if b_is_empty xin || negb (box_eqb xin X) then hull_all xins (diff X xin) else xins) in *.
    destruct (hull_all_spec n (diff X xin) xins G Gd) as (G1 & A1 & B1).
    assert (K1 : good n xins1 /\ (forall p, inb p xins -> inb p xins1) /\ (forall p, inb p X -> ~ inb p xin -> inb p xins1) /\
      (forall z, length z = n -> (forall p, inb p xins -> inb p z) -> (forall p, inb p x0 -> S p -> inb p z) -> forall p, inb p xins1 -> inb p z)).
    { unfold xins1. destruct (b_is_empty xin || negb (box_eqb xin X)) eqn:Ed.
      - split; auto. split; [auto|]. split. { intros p Hp N. apply A1. right. apply D2; auto. }
        intros z Lz H1 H2. apply B1; auto. intros d Id p Hp. apply (box_closed z _ p (HD2 X xin d p GX Gi Pi Id Hp)). intros q [Q1 Q2]. apply H2; [eapply inb_sub; eauto|].
        apply NNPP. intros N. apply Q2. apply (z_in _ _ _ HS); auto.
      - apply orb_false_iff in Ed. destruct Ed as [_ Ed]. apply negb_false_iff, box_eqb_eq in Ed. split; auto. split; auto. split; [intros p Hp N; rewrite Ed in N; contradiction|auto]. }
    clearbody xins1. destruct K1 as (G2 & A2 & C2 & B2).
    set (Y := b_inter X (b_inter xin xout)) in *.
    assert (GY : good n Y) by (apply good_inter; auto; apply good_inter; auto).
    assert (PY : forall p, inb p Y <-> inb p xin /\ inb p xout).
    { intros p. unfold Y. rewrite (inter_pts n) by (auto; apply good_inter; auto). rewrite (inter_pts n) by auto. split; [tauto|]. intros [H1 H2]. auto. }
    assert (SY : Forall2 sub Y x0).
    { eapply F2_sub_trans; [|exact SX]. apply b_inter_sub. destruct GX as (LX & _), (good_inter n xin xout Gi Go) as (LY & _). congruence. }
    assert (Split : forall p, inb p X -> S p -> inb p xins1 \/ inb p Y).
    { intros p Hp K. destruct (classic (inb p xin)) as [Q|Q]; [right; apply PY; split; auto; apply (z_out _ _ _ HS); auto|left; auto]. }
    destruct (b_is_empty Y) eqn:EY.
    { destruct (IH _ _ _ F' G2 E) as (A & B & C & D). split; auto. split; auto. split.
      - intros p Hp K. apply pending_cons in Hp. destruct Hp as [Hp|Hp]; auto. destruct (Split p Hp K) as [Q|Q]; auto. apply inb_empty in Q. congruence.
      - intros z Lz H1 H2 H3. apply D; auto. }
    destruct (dle (max_diam Y) eps) eqn:Em.
    { destruct (IH _ _ _ F' (good_hull n xins1 Y G2 GY) E) as (A & B & C & D). split; auto. split; [intros p Hp; apply B; apply (hull_pts n); auto|]. split.
      - intros p Hp K. apply pending_cons in Hp. destruct Hp as [Hp|Hp]; auto. apply B. apply (hull_pts n); auto.
      - intros z Lz H1 H2 H3. apply D; auto. apply (hull_incl n); auto. intros p. apply H3. split; auto. exists X. split; auto. split; auto. split; auto. split; auto. split; auto.
        destruct (max_diam Y) as [d|] eqn:Ed; [|discriminate]. cbn in Em. apply Rleb_true in Em. intros p1 p2 k Q1 Q2. pose proof (proj2 (max_diam_near Y d Ed) p1 p2 k Q1 Q2). lra. }
    destruct (bis Y) as [[x1 x2]|] eqn:Eb; [|discriminate]. destruct (HB Y x1 x2 GY EY Eb) as ((J1 & J2 & J3) & (J4 & J5 & J6) & J7).
    assert (F2 : Forall (fun X => good n X /\ Forall2 sub X x0) (lst ++ [x1; x2])).
    { apply Forall_app. split; auto. constructor; [split; auto; eapply F2_sub_trans; eauto|]. constructor; [split; auto; eapply F2_sub_trans; eauto|constructor]. }
    destruct (IH _ _ _ F2 G2 E) as (A & B & C & D). split; auto. split; auto. split.
    + intros p Hp K. apply pending_cons in Hp. destruct Hp as [Hp|Hp]; [|apply C; auto; apply pending_app; auto].
      destruct (Split p Hp K) as [Q|Q]; auto. apply C; auto. apply pending_app. right. destruct (J7 p Q) as [Q'|Q']; [exists x1|exists x2]; split; auto; [left|right; left]; auto.
    + intros z Lz H1 H2 H3. apply D; auto.
Qed.
Lemma ctc_hull_spec fuel r : good n x0 -> ctc_hull diff bis sep eps fuel x0 = HDone r ->
  good n r /\ (forall p, inb p r -> inb p x0) /\ (forall p, inb p x0 -> S p -> inb p r) /\
  (forall z, length z = n -> (forall p, inb p x0 -> S p -> inb p z) ->
     (forall u p, undecided n sep x0 eps u -> inb p u -> inb p z) -> forall p, inb p r -> inb p z).
Proof.
  intros G0 E. unfold ctc_hull in E. destruct (hull_loop diff bis sep eps fuel [x0] (repeat Emp (length x0))) as [xi| |] eqn:El; try discriminate. injection E as <-.
  assert (L0 : length x0 = n) by apply G0.
  destruct (hull_loop_spec fuel [x0] (repeat Emp (length x0)) xi) as (A & B & C & D); auto.
  { constructor; auto. split; auto using F2_sub_refl. }
  { apply good_emp; auto. }
  split; [apply good_inter; auto|]. split; [intros p Hp; apply (inter_pts n) in Hp; tauto|]. split.
  - intros p Hp K. apply (inter_pts n); auto. split; auto. apply C; auto. apply pending_cons. auto.
  - intros z Lz H1 H2 p Hp. apply (inter_pts n) in Hp; auto. apply (D z); auto; [|tauto]. intros q Q. exfalso. apply inb_empty in Q. destruct x0; cbn in *; [lia|discriminate].
Qed.
End Hull.

(** C112: the result contains every point of the set that is in the box, and nothing out of the box. *)
Theorem C112_keeps : forall n S sep diff bis eps fuel x r, (0 < n)%nat -> zsep n S sep -> pdiff_lim n diff -> pbis n bis -> good n x ->
  ctc_hull diff bis sep eps fuel x = HDone r ->
  (forall p, inb p x -> S p -> inb p r) /\ (forall p, inb p r -> inb p x).
Proof. intros n S sep diff bis eps fuel x r Hn HS HD HB G E. destruct (ctc_hull_spec n S sep diff bis eps x Hn HS HD HB fuel r G E) as (_ & A & B & _). auto. Qed.
(** C112: it is the smallest box that contains these points and the undecided boxes met. *)
Theorem C112_smallest : forall n S sep diff bis eps fuel x r z, (0 < n)%nat -> zsep n S sep -> pdiff_lim n diff -> pbis n bis -> good n x ->
  ctc_hull diff bis sep eps fuel x = HDone r -> length z = n ->
  (forall p, inb p x -> S p -> inb p z) -> (forall u p, undecided n sep x eps u -> inb p u -> inb p z) -> forall p, inb p r -> inb p z.
Proof. intros n S sep diff bis eps fuel x r z Hn HS HD HB G E. destruct (ctc_hull_spec n S sep diff bis eps x Hn HS HD HB fuel r G E) as (_ & _ & _ & D). apply D. Qed.

(** the values at a distance of at most [e] of an interval *)
Definition grow (e : R) (i : itv) : itv := match i with Emp => Emp | Itv l h => Itv (option_map (fun a => a - e) l) (option_map (fun b => b + e) h) end.
Lemma grow_near e i v w : In w i -> Rabs (v - w) <= e -> In v (grow e i).
Proof. intros H K. assert (K1 := Rle_abs (v - w)). assert (K2 := Rle_abs (- (v - w))). rewrite Rabs_Ropp in K2. destruct i as [|[l|] [h|]]; cbn in *; try tauto; lra. Qed.
Lemma near_grow e i v : 0 <= e -> wf i -> In v (grow e i) -> exists w, In w i /\ Rabs (v - w) <= e.
Proof.
  intros He W H. destruct i as [|l h]; [destruct H|].
  assert (Z : Rabs (v - v) <= e) by (rewrite Rminus_diag_eq, Rabs_R0; auto).
  destruct l as [a|], h as [b|]; cbn in *.
  - destruct (Rlt_dec v a); [exists a; split; [lra|apply Rabs_le; lra]|]. destruct (Rlt_dec b v); [exists b; split; [lra|apply Rabs_le; lra]|]. exists v. split; auto. lra.
  - destruct (Rlt_dec v a); [exists a; split; [lra|apply Rabs_le; lra]|]. exists v. split; auto. lra.
  - destruct (Rlt_dec b v); [exists b; split; [lra|apply Rabs_le; lra]|]. exists v. split; auto. lra.
  - exists v. auto.
Qed.
(** C112: when each undecided box meets the set, the result exceeds the hull of the set by at most [eps]. *)
Theorem C112_precision : forall n S sep diff bis eps fuel x r z, (0 < n)%nat -> zsep n S sep -> pdiff_lim n diff -> pbis n bis -> good n x ->
  ctc_hull diff bis sep eps fuel x = HDone r -> 0 <= eps -> length z = n -> Forall wf z ->
  (forall u, undecided n sep x eps u -> exists p, inb p u /\ S p) -> (forall p, inb p x -> S p -> inb p z) ->
  forall p, inb p r -> exists q, inb q z /\ Forall2 (fun a b => Rabs (a - b) <= eps) p q.
Proof.
  intros n S sep diff bis eps fuel x r z Hn HS HD HB G E He Lz Wz HU HZ p Hp.
  assert (K : inb p (map (grow eps) z)).
  { apply (C112_smallest n S sep diff bis eps fuel x r); auto; [rewrite map_length; auto| |].
    - intros q Hq HSq. specialize (HZ q Hq HSq). clear - HZ He. induction HZ; cbn; constructor; auto. eapply grow_near; eauto. rewrite Rminus_diag_eq, Rabs_R0; auto.
    - intros u q Hu Hq. destruct (HU u Hu) as (s & Hs & Ss). destruct Hu as (_ & X & GX & SX & EX & _ & PU & Nr).
      assert (Hsx : inb s x). { eapply inb_sub; [|exact SX]. destruct (proj1 (PU s) Hs) as [Q _]. eapply inb_sub; [exact Q|]. apply (z_sub _ _ _ HS); auto. }
      pose proof (HZ s Hsx Ss) as Hsz.
      assert (Nq : forall k, Rabs (nth k q 0 - nth k s 0) <= eps) by (intros k; apply Nr; auto).
      assert (L : length q = length s) by (apply inb_len in Hq; apply inb_len in Hs; congruence).
      clear - Hsz Nq L. revert q Nq L. induction Hsz as [|a i s z Ha Hz IH]; intros [|b q] Nq L; try discriminate; cbn; constructor.
      + eapply grow_near; [exact Ha|]. apply (Nq 0%nat).
      + apply IH; [|cbn in L; lia]. intros k. apply (Nq (Datatypes.S k)). }
  clear - K He Wz. revert p K. induction Wz as [|i z Wi Wz IH]; intros p K; cbn in K; inversion K as [|v ? p' ? Hv Hp']; subst.
  - exists []. split; constructor.
  - destruct (near_grow eps i v He Wi Hv) as (w & W1 & W2). destruct (IH p' Hp') as (q & Q1 & Q2). exists (w :: q). split; constructor; auto.
Qed.
(** C112: the loop ends, for a bounded box and a positive precision. *)
Theorem C112_ends : forall n S sep diff bis q eps x, (0 < n)%nat -> zsep n S sep -> pdiff_lim n diff -> pbis n bis -> bis_ok bis -> bis_shrinks q bis ->
  good n x -> Forall bounded x -> 0 < eps -> exists fuel r, ctc_hull diff bis sep eps fuel x = HDone r.
Proof.
  intros n S sep diff bis q eps x Hn HS HD HB HB2 HQ G B He. destruct HD as [HD _].
  destruct (weigh_exists q eps (sh_q _ _ HQ) He x B) as (w0 & H0).
  set (St := fun (X : box) (w : nat) => good n X /\ weigh q eps X w).
  assert (Main : forall fuel lst xins ws, Forall2 St lst ws -> good n xins -> (PropsSiviaTerm.total ws <= fuel)%nat ->
    exists r', hull_loop diff bis sep eps fuel lst xins = HDone r').
  { induction fuel as [|fuel IH]; intros lst xins ws F Gx L.
    - destruct F as [|X w lst ws HX F]; [exists xins; reflexivity|]. pose proof (PropsSiviaTerm.total_pos w ws). lia.
    - destruct F as [|X w lst ws HX F]; [exists xins; reflexivity|]. cbn [hull_loop]. cbv zeta.
      pose proof (PropsSiviaTerm.total_tail w ws fuel L) as Lt.
      destruct (b_is_subset X xins) eqn:Es; [apply (IH _ _ ws); auto|].
      assert (EX : b_is_empty X = false) by (unfold b_is_subset in Es; destruct (b_is_empty X); auto; discriminate).
      destruct HX as [GX Hw]. destruct (z_good _ _ _ HS X GX EX) as [Gi Go]. destruct (z_sub _ _ _ HS X GX EX) as [Si So].
      set (xin := fst (sep X X)) in *. set (xout := snd (sep X X)) in *.
      assert (Pi : forall p, inb p xin -> inb p X) by (intros p Hp; eapply inb_sub; eauto).
      destruct (HD X xin GX Gi Pi) as [D1 _].
      assert (Gd : Forall (good n) (diff X xin)) by (eapply Forall_impl; [|exact D1]; intros d [K _]; exact K).
      set (xins1 := if _ || _ then _ else xins).
      assert (G1 : good n xins1) by (unfold xins1; destruct (_ || _); auto; apply hull_all_spec; auto).
      set (Y := b_inter X (b_inter xin xout)) in *.
      assert (GY : good n Y) by (apply good_inter; auto; apply good_inter; auto).
      destruct (b_is_empty Y) eqn:EY; [apply (IH _ _ ws); auto|].
      destruct (dle (max_diam Y) eps) eqn:Em; [apply (IH _ _ ws); auto; apply good_hull; auto|].
      assert (SY : Forall2 sub Y X). { apply b_inter_sub. destruct GX as (LX & _), (good_inter n xin xout Gi Go) as (LY & _). congruence. }
      assert (NY : ~ List.In Emp Y) by (apply GY; auto).
      assert (BY : Forall bounded Y) by (eapply bounded_of_sub; [exact SY| | |eapply weigh_fits; eauto]; auto; apply GY).
      assert (WY : weigh q eps Y w) by (eapply weigh_sub; eauto; [apply (sh_q _ _ HQ)|apply GY]).
      assert (MY : max_diam_lt eps Y = false).
      { destruct (max_diam_lt eps Y) eqn:E; auto. exfalso. clear - E Em BY He. enough (K : exists d, max_diam Y = Some d /\ d <= eps) by (destruct K as (d & Ed & Ld); rewrite Ed in Em; cbn in Em; apply Rleb_false in Em; lra).
        clear Em. induction BY as [|i Y (a & b & -> & Lab) BY IH]; [exists 0; split; [auto|lra]|]. cbn [max_diam_lt forallb] in E. apply andb_true_iff in E. destruct E as [E1 E2].
        destruct (IH E2) as (d & Ed & Ld). cbn. rewrite Ed. eexists. split; [reflexivity|]. cbn in E1. apply Rltb_true in E1. apply Rmax_lub; lra. }
      destruct (weigh_bis q eps (sh_q _ _ HQ) He bis HB2 HQ Y w BY WY MY) as (x1 & x2 & w' & Eb & -> & K1 & K2).
      rewrite Eb. destruct (HB Y x1 x2 GY EY Eb) as ((J1 & _) & (J4 & _) & _).
      apply (IH _ _ (ws ++ [w'; w'])); [|auto|apply PropsSiviaTerm.total_split; auto]. apply Forall2_app; auto. constructor; [split; auto|]. constructor; [split; auto|constructor]. }
  destruct (Main (PropsSiviaTerm.total [w0]) [x] (repeat Emp (length x)) [w0]) as (r & E); [constructor; [split; auto|constructor]|apply good_emp; apply G|auto|].
  exists (PropsSiviaTerm.total [w0]). unfold ctc_hull. rewrite E. eauto.
Qed.

(** ** SepUnionBbox *)
(** point of one of the sets *)
Definition in_one (Ss : list (list R -> Prop)) (p : list R) : Prop := Exists (fun S => S p) Ss.
(** the points of each set that are in [x] are in its bounding box *)
Definition bboxes (x : box) (Ss : list (list R -> Prop)) (bs : list box) : Prop :=
  Forall2 (fun (S : list R -> Prop) b => length b = length x /\ forall p, inb p x -> S p -> inb p b) Ss bs.

Lemma disjoint_pts a b p : Paving.b_intersects a b = false -> inb p a -> inb p b -> False.
Proof. intros H A B. rewrite (intersects_in a b p A B) in H. discriminate. Qed.
Lemma box_eqb_refl a : box_eqb a a = true.
Proof. induction a as [|i a IH]; cbn; auto. rewrite IH, itv_eqb_refl. auto. Qed.

Section Union.
Context (x : box) (Wx : Forall wf x).
Lemma union_loop : forall seps Ss bbox bs i x_in x_out res, Forall2 sep_ok Ss seps -> bboxes x Ss bs -> skipn i bbox = bs ->
  (i = 0%nat -> x_out = x) -> Forall2 sub x_in x -> Forall wf x_in -> Forall2 sub res x -> Forall wf res ->
  (forall p, inb p x -> ~ inb p x_in -> inb p res) ->
  exists xi' xo', union_bbox_loop seps bbox (b_inter x x) x i x_in x_out res = Some (xi', xo') /\ Forall2 sub xi' x_in /\ Forall2 sub xo' x /\ Forall wf xi' /\ Forall wf xo' /\
    (forall p, inb p x_in -> ~ in_one Ss p -> inb p xi') /\ (forall p, inb p res -> inb p xo') /\ (forall p, inb p x -> in_one Ss p -> inb p xo') /\
    (forall p, inb p x -> ~ inb p xi' -> inb p xo').
Proof.
  induction seps as [|s seps IH]; intros Ss bbox bs i x_in x_out res F B Eb Ex Si Wi Sr Wr Inv; cbn [union_bbox_loop].
  - inversion F; subst. exists x_in, res. split; auto. split; [apply F2_sub_refl|]. split; auto. split; auto. split; auto. split; auto. split; auto. split; auto. intros p _ H. inversion H.
  - inversion F as [|S ? Ss' ? HS F']; subst. inversion B as [|? b ? bs' [Lb Hb] B']; subst.
    assert (Ei : nth_error bbox i = Some b /\ skipn (Datatypes.S i) bbox = bs').
    { clear - H1. revert bbox H1. induction i as [|i IH]; intros [|c bbox] H; cbn in *; try discriminate; [inversion H; auto|]. apply IH in H. auto. }
    destruct Ei as [En Eb']. rewrite En.
    destruct (Paving.b_intersects (b_inter x x) b) eqn:Ed; cbn [negb].
    + set (xo := b_inter (if Nat.ltb 0 i then x else x_out) x_in).
      assert (Exo : xo = b_inter x x_in). { unfold xo. destruct i; cbn [Nat.ltb Nat.leb]; auto. rewrite Ex; auto. }
      rewrite Exo. clear xo Exo. set (xo := b_inter x x_in).
      assert (Li : length x_in = length x) by (apply (F2_len _ _ _ Si)).
      assert (Sxo : Forall2 sub xo x) by (apply b_inter_sub; auto). assert (Wxo : Forall wf xo) by (apply b_inter_wf; auto).
      destruct (s_sub _ _ HS x_in xo) as [T1 T2]. destruct (s_wf _ _ HS x_in xo Wi Wxo) as [W1 W2].
      assert (T3 : Forall2 sub (snd (s x_in xo)) x) by (eapply F2_sub_trans; eauto).
      assert (Lr : length res = length (snd (s x_in xo))) by (rewrite (F2_len _ _ _ Sr), (F2_len _ _ _ T3); auto).
      assert (Keep : forall p, inb p x -> S p -> inb p (b_hull res (snd (s x_in xo)))).
      { intros p Hp K. destruct (classic (inb p x_in)) as [Q|Q]; [apply b_hull_in_r; auto|apply b_hull_in_l; auto; apply Inv; auto]. apply (s_keep_out _ _ HS); auto. apply b_inter_in; auto. }
      destruct (IH Ss' bbox bs' (Datatypes.S i) (fst (s x_in xo)) (snd (s x_in xo)) (b_hull res (snd (s x_in xo)))) as (xi' & xo' & E & A1 & A2 & A3 & A4 & A5 & A6 & A7 & A8); auto.
      * discriminate.
      * eapply F2_sub_trans; eauto.
      * apply b_hull_sub; auto.
      * apply b_hull_wf; auto.
      * intros p Hp N. destruct (classic (inb p x_in)) as [Q|Q]; [|apply b_hull_in_l; auto; apply Inv; auto]. apply Keep; auto. apply NNPP. intros N'. apply N. apply (s_keep_in _ _ HS); auto.
      * exists xi', xo'. split; auto. split; [eapply F2_sub_trans; eauto|]. split; auto. split; auto. split; auto. split; [|split; [|split; auto]].
        -- intros p Hp N. apply A5; [apply (s_keep_in _ _ HS); auto; intros K; apply N; left; auto|intros K; apply N; right; auto].
        -- intros p Hp. apply A6. apply b_hull_in_l; auto.
        -- intros p Hp K. inversion K; subst; auto.
    + destruct (IH Ss' bbox bs' (Datatypes.S i) x_in x_out res) as (xi' & xo' & E & A1 & A2 & A3 & A4 & A5 & A6 & A7 & A8); auto; [discriminate|].
      exists xi', xo'. split; auto. split; auto. split; auto. split; auto. split; auto. split; [|split; [auto|split; auto]].
      * intros p Hp N. apply A5; auto. intros K; apply N; right; auto.
      * intros p Hp K. inversion K as [? ? K'|]; subst; auto. exfalso. eapply (disjoint_pts _ _ p Ed); auto. apply b_inter_in; auto.
Qed.
End Union.
(** C113: with bounding boxes that contain the sets, it separates their union; each point of the box stays in one of the results. *)
Theorem C113_union : forall seps Ss bbox x, Forall2 sep_ok Ss seps -> bboxes x Ss bbox -> Forall wf x ->
  exists xi' xo', sep_union_bbox seps bbox x x = Some (xi', xo') /\ Forall wf xi' /\ Forall wf xo' /\
    separation (in_one Ss) x x xi' xo' /\ (forall p, inb p x -> inb p xi' \/ inb p xo').
Proof.
  intros seps Ss bbox x F B W. unfold sep_union_bbox. rewrite box_eqb_refl.
  assert (Le : Forall2 sub (repeat Emp (length x)) x). { clear. induction x; cbn; constructor; auto. intros v []. }
  assert (We : Forall wf (repeat Emp (length x))) by (apply Forall_forall; intros i H; apply repeat_spec in H; subst; exact Logic.I).
  destruct (union_loop x W seps Ss bbox bbox 0 x x (repeat Emp (length x))) as (xi' & xo' & E & A1 & A2 & A3 & A4 & A5 & A6 & A7 & A8); auto using F2_sub_refl.
  { intros p Hp N. contradiction. }
  exists xi', xo'. split; auto. split; auto. split; auto. assert (Sp : separation (in_one Ss) x x xi' xo').
  { split; [intros p Hp; eapply inb_sub; eauto|]. split; [intros p Hp; eapply inb_sub; eauto|]. split; auto. }
  split; auto. apply (separation_covers _ _ _ _ Sp).
Qed.
(** C113: a box that meets no bounding box is out of the union, no separator is called: x_in is not changed and x_out is empty. *)
Theorem C113_away : forall seps bbox x, (length seps <= length bbox)%nat -> (forall b, List.In b bbox -> Paving.b_intersects (b_inter x x) b = false) ->
  sep_union_bbox seps bbox x x = Some (x, repeat Emp (length x)).
Proof.
  intros seps bbox x L H. unfold sep_union_bbox. rewrite box_eqb_refl.
  assert (K : forall seps i xo res, (i + length seps <= length bbox)%nat -> union_bbox_loop seps bbox (b_inter x x) x i x xo res = Some (x, res)).
  { induction seps0 as [|s seps0 IH]; intros i xo res Li; cbn [union_bbox_loop]; auto. cbn in Li. destruct (nth_error bbox i) as [b|] eqn:En; [|apply nth_error_None in En; lia].
    rewrite (H b) by (eapply nth_error_In; eauto). cbn [negb]. apply IH. lia. }
  apply K. cbn. lia.
Qed.
(** C113: fewer boxes than separators: an element past the end of the vector is read. *)
Theorem C113_missing : forall seps bbox x, (length bbox < length seps)%nat -> sep_union_bbox seps bbox x x = None.
Proof.
  intros seps bbox x L. unfold sep_union_bbox. rewrite box_eqb_refl.
  assert (K : forall seps i xi xo res, (length bbox < i + length seps)%nat -> (i <= length bbox)%nat -> union_bbox_loop seps bbox (b_inter x x) x i xi xo res = None).
  { induction seps0 as [|s seps0 IH]; intros i xi xo res L1 L2; cbn [union_bbox_loop length] in *; [lia|]. destruct (nth_error bbox i) as [b|] eqn:En; auto.
    assert (i < length bbox)%nat by (apply nth_error_Some; congruence). destruct (negb _); apply IH; lia. }
  apply K; cbn; lia.
Qed.

(** ** Concrete cases *)
Lemma lf_pbis n : pbis n (lf (45 / 100)).
Proof. intros y y1 y2 G E H. apply (cbis_pbis n y); auto. unfold cbis. rewrite H. auto. Qed.
Lemma square_good : good 2 square.
Proof. split; [reflexivity|]. split; [boxt|]. intros _ [H|[H|[]]]; discriminate. Qed.
(** what a separator of a box leaves undecided is in the box *)
Lemma sep_box_undecided n mb x eps u : length mb = n -> undecided n (sep_box mb) x eps u -> exists p, inb p u /\ inb p mb.
Proof.
  intros L (G & X & GX & SX & EX & EU & P & _). destruct (good_point n u G EU) as (p & Hp). exists p. split; auto.
  destruct (proj1 (P p) Hp) as [_ Q]. cbn [sep_box snd] in Q. apply inb_inter in Q; [tauto|]. destruct GX as [LX _]. congruence.
Qed.
(** the part of the box [1,3]x[0,1] in [0,2]x[0,2] *)
Example C112_case : exists fuel r, ctc_hull cdiff (lf (45 / 100)) (sep_box disk_box) (1 / 10) fuel square = HDone r /\ inb [3 / 2; 1 / 2] r /\
  forall p, inb p r -> exists q, inb q [I2 1 2; I2 0 1] /\ Forall2 (fun a b => Rabs (a - b) <= 1 / 10) p q.
Proof.
  assert (Z : zsep 2 (fun p => inb p disk_box) (sep_box disk_box)) by (apply sep_box_zsep; reflexivity).
  destruct (C112_ends 2 _ _ cdiff (lf (45 / 100)) _ (1 / 10) square ltac:(lia) Z (cdiff_lim 2) (lf_pbis 2) (lf_ok _ lf45) (lf_shrinks _ lf45) square_good square_bounded ltac:(lra)) as (fuel & r & E).
  exists fuel, r. split; auto. split.
  - apply (C112_keeps 2 _ _ _ _ _ _ _ _ ltac:(lia) Z (cdiff_lim 2) (lf_pbis 2) square_good E); boxt.
  - apply (C112_precision 2 _ _ _ _ _ _ _ _ _ ltac:(lia) Z (cdiff_lim 2) (lf_pbis 2) square_good E); auto; [lra|boxt| |].
    + intros u Hu. apply (sep_box_undecided 2 disk_box square (1 / 10)); auto.
    + intros p H1 H2. inversion H1 as [|a ? ? ? A1 T1]; subst. inversion T1 as [|b ? ? ? A2 T2]; subst. inversion T2; subst. inversion H2 as [|? ? ? ? B1 T3]; subst. inversion T3 as [|? ? ? ? B2 T4]; subst.
      cbn in *. constructor; [cbn; lra|]. constructor; [cbn; lra|constructor].
Qed.
(** a separator that decides nothing: the whole box is returned although the set is empty *)
Theorem C112_hull_refuted : exists n S sep diff bis eps fuel x r p, zsep n S sep /\ pdiff_lim n diff /\ pbis n bis /\ good n x /\ Forall bounded x /\ 0 < eps /\
  ctc_hull diff bis sep eps fuel x = HDone r /\ (forall q, ~ S q) /\ inb p r.
Proof.
  exists 1%nat, (fun _ => False), (fun xi xo => (xi, xo)), cdiff, (lf (45 / 100)), 1, 1%nat, [I2 0 1], [I2 0 1], [0].
  assert (G : good 1 [I2 0 1]). { split; [reflexivity|]. split; [boxt|]. intros _ [H|[]]; discriminate. }
  split. { constructor; cbn [fst snd]; auto using F2_sub_refl. }
  split; [apply cdiff_lim|]. split; [apply lf_pbis|]. split; auto. split; [boxt; exists 0, 1; split; auto; lra|]. split; [lra|]. split; [|split; [auto|boxt]].
  unfold ctc_hull. cbn [hull_loop length repeat]. cbv zeta. cbn [fst snd]. unfold b_is_subset, I2. cbn [b_is_empty is_empty]. rewrite box_eqb_refl. cbn [orb negb].
  assert (J : b_inter [Itv (Some 0) (Some 1)] [Itv (Some 0) (Some 1)] = [Itv (Some 0) (Some 1)]) by (apply (inter_self 1); exact G).
  rewrite !J. cbn [b_is_empty is_empty max_diam]. replace (dle (Some (Rmax (1 - 0) 0)) 1) with true.
  - cbn [b_hull b_is_empty is_empty]. rewrite J. reflexivity.
  - symmetry. apply Rleb_true. apply Rmax_lub; lra.
Qed.

(** two boxes: a point of the first one, one of the second one, one of none *)
Definition u1 : box := [I2 0 1; I2 0 1].
Definition u2 : box := [I2 2 3; I2 0 1].
Definition ux : box := [I2 0 4; I2 0 1].
Example C113_case : exists xi' xo', sep_union_bbox [box_sep u1; box_sep u2] [u1; u2] ux ux = Some (xi', xo') /\
  inb [1 / 2; 1 / 2] xo' /\ inb [5 / 2; 1 / 2] xo' /\ inb [7 / 2; 1 / 2] xi'.
Proof.
  destruct (C113_union [box_sep u1; box_sep u2] [fun p => inb p u1; fun p => inb p u2] [u1; u2] ux) as (xi' & xo' & E & _ & _ & (_ & _ & A & B) & _).
  - constructor; [apply box_sep_ok|]. constructor; [apply box_sep_ok|constructor].
  - constructor; [split; [reflexivity|auto]|]. constructor; [split; [reflexivity|auto]|constructor].
  - boxt.
  - exists xi', xo'. split; auto. split; [|split].
    + apply B; [boxt|]. left. boxt.
    + apply B; [boxt|]. right. left. boxt.
    + apply A; [boxt|]. intros K. inversion K as [? ? H|? ? H]; subst; [inversion H as [|? ? ? ? H1 _]; subst; cbn in H1; lra|]. inversion H as [? ? H0|? ? H0]; subst; [|inversion H0]. inversion H0 as [|? ? ? ? H1 _]; subst. cbn in H1. lra.
Qed.
Example C113_away_case : sep_union_bbox [box_sep u1] [u1] [I2 5 6; I2 0 1] [I2 5 6; I2 0 1] = Some ([I2 5 6; I2 0 1], [Emp; Emp]).
Proof.
  rewrite C113_away; [reflexivity|auto|]. intros b [<-|[]]. destruct (Paving.b_intersects _ u1) eqn:E; auto. exfalso.
  assert (J : b_inter [I2 5 6; I2 0 1] [I2 5 6; I2 0 1] = [I2 5 6; I2 0 1]) by (apply (inter_self 2); split; [reflexivity|]; split; [boxt|]; intros _ [H|[H|[]]]; discriminate).
  rewrite J in E. unfold Paving.b_intersects, u1, I2 in E. cbn [b_is_empty existsb is_empty orb combine forallb fst snd] in E. apply andb_true_iff in E. destruct E as [E _]. apply negb_true_iff in E. assert (K : inter (Itv (Some 5) (Some 6)) (Itv (Some 0) (Some 1)) = Emp) by (unfold inter, mk; cbn; reval; reflexivity). rewrite K in E. discriminate.
Qed.
Example C113_missing_case : sep_union_bbox [box_sep u1; box_sep u2] [u1] ux ux = None.
Proof. apply C113_missing. cbn. lia. Qed.
(** a bounding box that does not contain the set: a point of the set is removed *)
Theorem C113_bbox_refuted : exists seps Ss bbox x xi' xo' p, Forall2 sep_ok Ss seps /\ Forall (Forall wf) bbox /\ Forall wf x /\
  sep_union_bbox seps bbox x x = Some (xi', xo') /\ inb p x /\ in_one Ss p /\ ~ inb p xo'.
Proof.
  exists [box_sep [I2 0 6]], [fun p => inb p [I2 0 6]], [[I2 0 1]], [I2 5 6], [I2 5 6], [Emp], [5]. split; [constructor; [apply box_sep_ok|constructor]|]. split; [constructor; [boxt|constructor]|].
  split; [boxt|]. split; [|split; [boxt|split; [left; boxt|intros K; inversion K as [|? ? ? ? H _]; destruct H]]].
  rewrite C113_away; [reflexivity|auto|]. intros b [<-|[]]. destruct (Paving.b_intersects _ [I2 0 1]) eqn:E; auto. exfalso.
  assert (J : b_inter [I2 5 6] [I2 5 6] = [I2 5 6]) by (apply (inter_self 1); split; [reflexivity|]; split; [boxt|]; intros _ [H|[]]; discriminate).
  rewrite J in E. unfold Paving.b_intersects, I2 in E. cbn [b_is_empty existsb is_empty orb combine forallb fst snd] in E. apply andb_true_iff in E. destruct E as [E _]. apply negb_true_iff in E. assert (K : inter (Itv (Some 5) (Some 6)) (Itv (Some 0) (Some 1)) = Emp) by (unfold inter, mk; cbn; reval; reflexivity). rewrite K in E. discriminate.
Qed.

Print Assumptions C112_keeps.
Print Assumptions C112_smallest.
Print Assumptions C112_precision.
Print Assumptions C112_ends.
Print Assumptions C112_hull_refuted.
Print Assumptions C113_union.
Print Assumptions C113_away.
Print Assumptions C113_missing.
Print Assumptions C113_bbox_refuted.
