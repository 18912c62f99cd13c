(** * C96: the test of PdcInPolygon *)
From Coq Require Import Reals Lra Lia Bool List Arith Permutation Classical_Prop.
Import ListNotations.
From Verif Require Import Itv Arith Concrete PropsDyn2 Static PropsStatic Sivia PropsSivia PropsSiviaEx Geometry PropsGeom PropsPolar PropsPolar2 PolarE SepPolar PropsSepPolar Winding InPolygon.
Open Scope R_scope.

(** What is expected of [atan2] (IBEX): it contains the angles, in ]-pi,pi], of the vectors. *)
Definition atan2_ok (iatan2 : itv -> itv -> itv) : Prop :=
  forall t r x y X Y, - PI < t <= PI -> 0 < r -> x = r * cos t -> y = r * sin t -> In x X -> In y Y -> In t (iatan2 Y X).
(** the point that is tested *)
Definition middle (mid : itv -> R) (x : box) : point := (mid (nth 0 x Emp), mid (nth 1 x Emp)).

Lemma conv_le l a b s : 0 <= s <= 1 -> l <= a -> l <= b -> l <= a + s * (b - a).
Proof. intros Hs Ha Hb. replace (a + s * (b - a)) with (l + ((1 - s) * (a - l) + s * (b - l))) by ring. assert (0 <= (1 - s) * (a - l)) by (apply Rmult_le_pos; lra). assert (0 <= s * (b - l)) by (apply Rmult_le_pos; lra). lra. Qed.
Lemma conv_ge h a b s : 0 <= s <= 1 -> a <= h -> b <= h -> a + s * (b - a) <= h.
Proof. intros Hs Ha Hb. pose proof (conv_le (- h) (- a) (- b) s Hs ltac:(lra) ltac:(lra)) as Q. lra. Qed.
Lemma conv_in i a b s : 0 <= s <= 1 -> In a i -> In b i -> In (a + s * (b - a)) i.
Proof. intros Hs Ha Hb. destruct i as [|[l|] [h|]]; cbn in *; try tauto; repeat split; try apply conv_le; try apply conv_ge; lra. Qed.
(** ** The polygon given by its vertices is closed *)
Lemma edges_fst vs : map fst (edges vs) = vs.
Proof.
  unfold edges. rewrite map_map. cbn [fst]. apply nth_ext with (d := (0, 0)) (d' := (0, 0)); [rewrite map_length, seq_length; reflexivity|].
  rewrite map_length, seq_length. intros i Hi. rewrite (nth_indep _ (0, 0) ((fun i => nth (i mod length vs) vs (0, 0)) 0%nat)) by (rewrite map_length, seq_length; auto).
  rewrite (map_nth (fun i => nth (i mod length vs) vs (0, 0))), seq_nth, Nat.add_0_l, Nat.mod_small by auto. reflexivity.
Qed.
Lemma edges_snd v l : map snd (edges (v :: l)) = l ++ [v].
Proof.
  unfold edges. rewrite map_map. cbn [snd]. set (n := length (v :: l)). apply nth_ext with (d := (0, 0)) (d' := (0, 0)); [rewrite map_length, seq_length, app_length; unfold n; cbn; lia|].
  rewrite map_length, seq_length. intros i Hi. rewrite (nth_indep _ (0, 0) ((fun i => nth ((i + 1) mod n) (v :: l) (0, 0)) 0%nat)) by (rewrite map_length, seq_length; auto).
  rewrite (map_nth (fun i => nth ((i + 1) mod n) (v :: l) (0, 0))), seq_nth, Nat.add_0_l by auto.
  destruct (Nat.eq_dec i (length l)) as [->|N].
  - replace (length l + 1)%nat with n by (unfold n; cbn; lia). rewrite Nat.mod_same by (unfold n; cbn; lia). rewrite app_nth2, Nat.sub_diag by lia. reflexivity.
  - assert (i < length l)%nat by (unfold n in Hi; cbn in Hi; lia). rewrite Nat.mod_small by (unfold n; cbn; lia). rewrite Nat.add_1_r. cbn [nth]. rewrite app_nth1 by auto. reflexivity.
Qed.
Lemma edges_closed vs : closed (edges vs).
Proof.
  unfold closed. rewrite edges_fst. destruct vs as [|v l]; [constructor|]. rewrite edges_snd. apply Permutation_cons_append.
Qed.

Section Test.
  Variables (E : elem) (iatan2 : itv -> itv -> itv) (two_pi : itv) (mid : itv -> R).
  Hypothesis HE : elem_ok E.
  Hypothesis HA : atan2_ok iatan2.
  Hypothesis HP : In (2 * PI) two_pi.
  Notation argument := (argument E iatan2).
  Notation theta_sum := (theta_sum E iatan2).
  Notation in_polygon := (in_polygon E iatan2 two_pi mid).

  Lemma argument_in m a b MX MY : off m a b -> In (fst m) MX -> In (snd m) MY -> In (turn m a b) (argument MX MY (fst a) (snd a) (fst b) (snd b)).
  Proof.
    intros O HX HY. pose proof (ar_ok E HE) as AO. destruct m as [mx my], a as [ax ay], b as [bx b_y]. cbn [fst snd] in *. unfold InPolygon.argument. cbv zeta.
    assert (In (ax - mx) (isub (ar E) (pt ax) MX)) as H1 by (apply (isub_in _ AO); auto; apply In_pt; auto).
    assert (In (ay - my) (isub (ar E) (pt ay) MY)) as H2 by (apply (isub_in _ AO); auto; apply In_pt; auto).
    assert (In (bx - mx) (isub (ar E) (pt bx) MX)) as H3 by (apply (isub_in _ AO); auto; apply In_pt; auto).
    assert (In (b_y - my) (isub (ar E) (pt b_y) MY)) as H4 by (apply (isub_in _ AO); auto; apply In_pt; auto).
    set (A := isub (ar E) (pt ax) MX) in *. set (B := isub (ar E) (pt ay) MY) in *. set (C := isub (ar E) (pt bx) MX) in *. set (D := isub (ar E) (pt b_y) MY) in *. clearbody A B C D.
    assert (N : forall px py, (px, py) = (ax, ay) \/ (px, py) = (bx, b_y) -> 0 < (px - mx) * (px - mx) + (py - my) * (py - my)).
    { intros px py Hp. assert ((px, py) <> (mx, my)) as NE.
      { destruct Hp as [Q|Q]; rewrite Q; [rewrite <- (along_0 (ax, ay) (bx, b_y))|rewrite <- (along_1 (ax, ay) (bx, b_y))]; apply O; lra. }
      pose proof (Rle_0_sqr (px - mx)) as S1. pose proof (Rle_0_sqr (py - my)) as S2. unfold Rsqr in S1, S2.
      destruct (Req_dec px mx) as [->|Nx]; [|assert (Q := Rsqr_pos_lt (px - mx) ltac:(lra)); unfold Rsqr in Q; lra].
      destruct (Req_dec py my) as [->|Ny]; [congruence|assert (Q := Rsqr_pos_lt (py - my) ltac:(lra)); unfold Rsqr in Q; lra]. }
    pose proof (N ax ay (or_introl eq_refl)) as Na. pose proof (N bx b_y (or_intror eq_refl)) as Nb.
    set (na := sqrt ((ax - mx) * (ax - mx) + (ay - my) * (ay - my))). set (nb := sqrt ((bx - mx) * (bx - mx) + (b_y - my) * (b_y - my))).
    assert (0 < na) as Pa by (apply sqrt_lt_R0; auto). assert (0 < nb) as Pb by (apply sqrt_lt_R0; auto). assert (0 < na * nb) as Pn by (apply Rmult_lt_0_compat; auto).
    assert (In na (isqrt E (iadd (ar E) (isqr E A) (isqr E B)))) as K1 by (apply isqrt_in; [auto|apply (iadd_in _ AO); apply isqr_in; auto|lra]).
    assert (In nb (isqrt E (iadd (ar E) (isqr E C) (isqr E D)))) as K2 by (apply isqrt_in; [auto|apply (iadd_in _ AO); apply isqr_in; auto|lra]).
    assert (In (na * nb) (imul (ar E) (isqrt E (iadd (ar E) (isqr E A) (isqr E B))) (isqrt E (iadd (ar E) (isqr E C) (isqr E D))))) as K3 by (apply (imul_in _ AO); auto).
    pose proof (off_dir (mx, my) (ax, ay) (bx, b_y) 1 O ltac:(lra)) as Dir. rewrite along_1 in Dir. destruct (ang_polar _ _ Dir) as (r & P & X & Y & Bd). fold (turn (mx, my) (ax, ay) (bx, b_y)) in X, Y, Bd.
    unfold dot, cross in X, Y. cbn [fst snd] in X, Y.
    apply (HA _ (r / (na * nb)) (((ax - mx) * (bx - mx) + (ay - my) * (b_y - my)) / (na * nb)) (((ax - mx) * (b_y - my) - (ay - my) * (bx - mx)) / (na * nb))).
    - lra.
    - apply Rdiv_lt_0_compat; auto.
    - rewrite X. field. split; lra.
    - rewrite Y. field. split; lra.
    - apply idiv_in; auto; [|lra]. apply (iadd_in _ AO); apply (imul_in _ AO); auto.
    - apply idiv_in; auto; [|lra]. apply (isub_in _ AO); apply (imul_in _ AO); auto.
  Qed.
  Lemma theta_in es m : Forall (fun e => off m (fst e) (snd e)) es -> In (turn_sum es m) (theta_sum es (pt (fst m)) (pt (snd m))).
  Proof.
    intros O. unfold InPolygon.theta_sum, turn_sum. pose proof (ar_ok E HE) as AO.
    assert (G : forall T t, In t T -> In (t + sumR (map (fun e => turn m (fst e) (snd e)) es))
      (fold_left (fun th e => iadd (ar E) th (argument (pt (fst m)) (pt (snd m)) (fst (fst e)) (snd (fst e)) (fst (snd e)) (snd (snd e)))) es T)).
    { induction O as [|e es Oe _ IH]; intros T t Ht; cbn [map sumR fold_left]; [rewrite Rplus_0_r; auto|]. rewrite <- Rplus_assoc. apply IH. apply (iadd_in _ AO); auto.
      apply argument_in; auto; apply In_pt; auto. }
    specialize (G (pt 0) 0 ltac:(apply In_pt; auto)). rewrite Rplus_0_l in G. exact G.
  Qed.
  Lemma decide_sound theta k : In (IZR k * (2 * PI)) theta ->
    (decide_theta two_pi theta = YES -> k <> 0%Z) /\ (decide_theta two_pi theta = NO -> k <> 1%Z /\ In 0 theta).
  Proof.
    intros H. unfold decide_theta. destruct (contains theta 0) eqn:C; cbn [negb].
    - split; [destruct (_ && _); discriminate|]. destruct (is_empty (inter theta two_pi)) eqn:I; [|discriminate]. intros _. apply contains_true in C. split; auto. intros ->. apply is_empty_true in I.
      assert (In (2 * PI) (inter theta two_pi)) as Q by (apply In_inter; split; auto; replace (2 * PI) with (IZR 1 * (2 * PI)) by lra; auto). rewrite I in Q. exact Q.
    - split; [|discriminate]. intros _ ->. apply contains_false in C. apply C. replace 0 with (0 * (2 * PI)) at 1 by ring. exact H.
  Qed.
  (** The answer for the middle of the box: inside if YES; not wound once if NO. A polygon in counter-clockwise order is wound
      0 or 1 time around each point; for the other ones NO needs an interval of angles narrower than 2 pi. *)
  Theorem C96_middle_partial : forall es x k, winds es (middle mid x) k ->
    (in_polygon es x = YES -> k <> 0%Z) /\ (in_polygon es x = NO -> k <> 1%Z) /\
    ((forall u v, In u (theta_sum es (pt (fst (middle mid x))) (pt (snd (middle mid x)))) -> In v (theta_sum es (pt (fst (middle mid x))) (pt (snd (middle mid x)))) -> u - v < 2 * PI) ->
      in_polygon es x = NO -> k = 0%Z).
  Proof.
    intros es x k W. apply winds_sum in W as [W O]. pose proof (theta_in es _ O) as T. rewrite W in T. unfold InPolygon.in_polygon. destruct (decide_sound _ _ T) as [D1 D2].
    unfold middle in *. cbn [fst snd] in *. refine (conj D1 (conj _ _)); [intros Q; apply D2; auto|]. intros N Q. apply D2 in Q as [_ Q]. pose proof (N _ _ T Q) as L1. pose proof (N _ _ Q T) as L2. pose proof PI_RGT_0.
    assert (-1 < k < 1)%Z by (split; apply lt_IZR; nra). lia.
  Qed.
  (** For a box that does not meet the polygon the answer holds for all its points. *)
  Theorem C96_box_partial : forall es i j, closed es -> In (mid i) i -> In (mid j) j ->
    (forall p, In (fst p) i -> In (snd p) j -> Forall (fun e => off p (fst e) (snd e)) es) ->
    exists k, (forall p, In (fst p) i -> In (snd p) j -> winds es p k) /\ (in_polygon es [i; j] = YES -> k <> 0%Z) /\ (in_polygon es [i; j] = NO -> k <> 1%Z).
  Proof.
    intros es i j C Hi Hj O. destruct (winds_exists es (mid i, mid j) C (O (mid i, mid j) Hi Hj)) as (k & K). exists k. split.
    - intros p H1 H2. apply (winds_constant es (mid i, mid j) p k); auto. intros s Hs. apply O; unfold along; cbn [fst snd].
      + apply conv_in; auto.
      + apply conv_in; auto.
    - destruct (C96_middle_partial es [i; j] k K) as (D1 & D2 & _). auto.
  Qed.
End Test.

(** ** C97: the separator on a polygon *)
Definition edge_ctc (cf cg : ctc_t) (e : segment) : ctc_t := ctc_segment2 cf cg (fst (fst e)) (snd (fst e)) (fst (snd e)) (snd (snd e)).
(** the same contractor, extended to the boxes that are not of dimension 2 *)
Definition edge_ctc2 (cf cg : ctc_t) (e : segment) (x : box) : box := match x with [_; _] => edge_ctc cf cg e x | _ => x end.
Definition on_edge (e : segment) (p : list R) : Prop :=
  match p with [p0; p1] => on_segment p0 p1 (fst (fst e)) (snd (fst e)) (fst (snd e)) (snd (snd e)) | _ => False end.
Lemma poly_ctc2 cf cg es i j : poly_ctc cf cg es [i; j] = ctc_union 2 (map (edge_ctc2 cf cg) es) [i; j].
Proof.
  unfold poly_ctc, ctc_union. generalize (repeat Emp 2). induction es as [|e es IH]; intros acc; cbn [map fold_left]; auto.
Qed.
Section Separator.
  Variables (E : elem) (iatan2 : itv -> itv -> itv) (two_pi : itv) (mid : itv -> R) (diff : box -> box -> list box) (cf cg : ctc_t).
  Hypothesis HE : elem_ok E.
  Hypothesis HA : atan2_ok iatan2.
  Hypothesis HP : In (2 * PI) two_pi.
  Hypothesis HD : diff_ok diff.
  Hypothesis HL : forall x0 x d, List.In d (diff x0 x) -> length d = length x0.
  Hypothesis Kf : keeps seg_f cf.
  Hypothesis Kg : keeps seg_g cg.
  Hypothesis Cf : contracts cf.
  Hypothesis Cg : contracts cg.
  Hypothesis Bf : gives_boxes cf.
  Hypothesis Bg : gives_boxes cg.
  Hypothesis Ng : forall x, normal (cg x).

  Lemma edge2_keeps e : keeps (on_edge e) (edge_ctc2 cf cg e).
  Proof.
    intros x p Hp P. destruct p as [|p0 [|p1 [|? ?]]]; try destruct P. inversion Hp as [|? i ? ? H0 Hq]; subst. inversion Hq as [|? j ? ? H1 Hr]; subst. inversion Hr; subst.
    apply C24_segment; auto. eexists; eauto.
  Qed.
  Lemma edge2_contracts e : contracts (edge_ctc2 cf cg e).
  Proof.
    intros x. assert (Forall2 sub x x) as R by (induction x; constructor; auto; apply sub_refl). destruct x as [|i [|j [|? ?]]]; auto. apply C24_segment_contracts; auto.
  Qed.
  Lemma edge2_boxes e : gives_boxes (edge_ctc2 cf cg e).
  Proof.
    intros x W. destruct x as [|i [|j [|? ?]]]; auto. unfold edge_ctc2, edge_ctc, ctc_segment2. assert (forall k, Forall wf (repeat Emp k)) as RE by (induction k; constructor; auto; exact Logic.I).
    set (X := firstn 2 [i; j] ++ _). assert (Forall wf X) as WX by (unfold X; inversion W; inversion H2; subst; cbn; repeat apply Forall_cons; auto; apply wf_pt).
    destruct (b_is_empty _); [apply (RE 2%nat)|]. destruct (b_is_empty _); [apply (RE 2%nat)|]. specialize (Bg _ (Bf _ WX)). rewrite Forall_forall in *. intros k Hk. apply Bg. rewrite <- (firstn_skipn 2). apply in_or_app; auto.
  Qed.
  Lemma normal_hull a b : length a = length b -> normal a -> normal b -> normal (b_hull a b).
  Proof.
    intros L Na Nb. unfold b_hull. destruct (b_is_empty b) eqn:Eb; auto. destruct (b_is_empty a) eqn:Ea; auto. intros _. specialize (Na Ea). specialize (Nb Eb). clear Ea Eb.
    revert b L Nb. induction a as [|i a IH]; intros [|j b] L Nb; try discriminate L; cbn; auto. intros [Q|Q]; [|apply (IH ltac:(intros K; apply Na; right; auto) b ltac:(cbn in L; lia)); auto; intros K; apply Nb; right; auto].
    destruct i; [apply Na; left; auto|]. destruct j; [apply Nb; left; auto|]. discriminate Q.
  Qed.
  Lemma edge2_normal e i j : normal (edge_ctc2 cf cg e [i; j]).
  Proof.
    unfold edge_ctc2, edge_ctc, ctc_segment2. set (X := firstn 2 [i; j] ++ _). destruct (b_is_empty _); [intros Q; discriminate Q|]. destruct (b_is_empty (cg _)) eqn:Q; [intros K; discriminate K|].
    intros _ K. apply (Ng (cf X)); auto. rewrite <- (firstn_skipn 2). apply in_or_app; auto.
  Qed.
  Lemma poly_normal es i j : normal (poly_ctc cf cg es [i; j]).
  Proof.
    rewrite poly_ctc2. unfold ctc_union. assert (normal (repeat Emp 2)) as N0 by (intros Q; discriminate Q). assert (length (repeat Emp 2) = 2)%nat as L0 by reflexivity.
    revert N0 L0. generalize (repeat Emp 2). induction es as [|e es IH]; intros acc N0 L0; cbn [map fold_left]; auto.
    assert (length (edge_ctc2 cf cg e [i; j]) = 2)%nat as L1 by (apply (F2_len _ _ _ (edge2_contracts e [i; j]))).
    apply IH; [apply normal_hull; auto; [congruence|apply edge2_normal]|rewrite b_hull_len; congruence].
  Qed.
  Lemma poly_box es i j : wf i -> wf j -> Forall2 sub (poly_ctc cf cg es [i; j]) [i; j] /\ Forall wf (poly_ctc cf cg es [i; j]).
  Proof.
    intros Wi Wj. rewrite poly_ctc2. apply C24_union_contracts; auto.
    - apply Forall_forall. intros c Hc. apply in_map_iff in Hc as (e & <- & _). apply edge2_contracts.
    - apply Forall_forall. intros c Hc. apply in_map_iff in Hc as (e & <- & _). apply edge2_boxes.
  Qed.
  Lemma poly_keeps es i j p0 p1 : inb [p0; p1] [i; j] -> Exists (fun e => ~ off (p0, p1) (fst e) (snd e)) es -> inb [p0; p1] (poly_ctc cf cg es [i; j]).
  Proof.
    intros Hp Hx. rewrite poly_ctc2. apply (C24_union (map on_edge es)); auto.
    - clear Hx. induction es; constructor; auto. apply edge2_keeps.
    - apply Forall_forall. intros c Hc. apply in_map_iff in Hc as (e & <- & _). apply edge2_contracts.
    - apply Exists_exists in Hx as (e & He & O). exists (on_edge e). split; [apply List.in_map; auto|]. cbn. unfold on_segment. apply NNPP. intros K. apply O. intros s Hs Q. apply K. exists s. unfold along in Q. injection Q as Q1 Q2. auto.
  Qed.
  Lemma poly_off es i j p0 p1 : inb [p0; p1] [i; j] -> ~ inb [p0; p1] (poly_ctc cf cg es [i; j]) -> Forall (fun e => off (p0, p1) (fst e) (snd e)) es.
  Proof.
    intros Hp N. apply NNPP. intros K. apply N. apply poly_keeps; auto. apply NNPP. intros X. apply K. apply Forall_forall. intros e He. apply NNPP. intros Q. apply X. apply Exists_exists. eauto.
  Qed.
  (** the boxes of the difference: their middle is inside, and from there each point outside the border is reached without
      crossing the border *)
  Definition sees (ds : list box) (xb : box) : Prop := forall d p0 p1, List.In d ds -> inb [p0; p1] d -> ~ inb [p0; p1] xb ->
    inb [fst (middle mid d); snd (middle mid d)] d /\ forall s, 0 <= s <= 1 -> ~ inb [fst (along (middle mid d) (p0, p1) s); snd (along (middle mid d) (p0, p1) s)] xb.
  Notation sep_polygon := (sep_polygon E iatan2 two_pi mid diff cf cg).

  Lemma fold_keeps test ds (r : box * box) p : Forall (fun d => length d = 2%nat) ds -> length (fst r) = 2%nat -> length (snd r) = 2%nat ->
    let f := fold_left (fun r d => match test d with YES => (fst r, b_hull (snd r) d) | NO => (b_hull (fst r) d, snd r) | MAYBE => (b_hull (fst r) d, b_hull (snd r) d) end) ds r in
    (inb p (fst r) \/ (exists d, List.In d ds /\ inb p d /\ test d <> YES) -> inb p (fst f)) /\ (inb p (snd r) \/ (exists d, List.In d ds /\ inb p d /\ test d <> NO) -> inb p (snd f)).
  Proof.
    revert r. induction ds as [|d ds IH]; intros r L L1 L2 f; [split; intros [H|(d & [] & _)]; exact H|]. inversion L as [|? ? Ld Ls]; subst.
    unfold f. cbn [fold_left]. set (r' := match test d with YES => _ | NO => _ | MAYBE => _ end).
    assert (length (fst r') = 2 /\ length (snd r') = 2)%nat as [K1 K2] by (unfold r'; destruct (test d); cbn [fst snd]; rewrite ?b_hull_len by congruence; split; congruence).
    destruct (IH r' Ls K1 K2) as [I1 I2]. split.
    - intros [H|(d' & [<-|Hd] & Hp & T)]; apply I1; [left|left|right; eauto]; unfold r'; destruct (test d); cbn [fst]; try congruence; first [assumption|apply b_hull_in_l; [congruence|assumption]|apply b_hull_in_r; [congruence|assumption]].
    - intros [H|(d' & [<-|Hd] & Hp & T)]; apply I2; [left|left|right; eauto]; unfold r'; destruct (test d); cbn [snd]; try congruence; first [assumption|apply b_hull_in_l; [congruence|assumption]|apply b_hull_in_r; [congruence|assumption]].
  Qed.
  (** Points of the border are kept in both boxes, points around which the polygon does not turn are kept in the first one (it
      loses only inside points), points inside are kept in the second one. *)
  Theorem C97_partial : forall es i1 j1 i2 j2 p0 p1, closed es -> wf i1 -> wf j1 -> wf i2 -> wf j2 -> inb [p0; p1] [i1; j1] -> inb [p0; p1] [i2; j2] ->
    let x := b_inter [i1; j1] [i2; j2] in let xb := poly_ctc cf cg es x in
    sees (diff x xb) xb ->
    let r := sep_polygon es [i1; j1] [i2; j2] in
    (Exists (fun e => ~ off (p0, p1) (fst e) (snd e)) es -> inb [p0; p1] (fst r) /\ inb [p0; p1] (snd r)) /\
    (winds es (p0, p1) 0 -> inb [p0; p1] (fst r)) /\
    (forall k, winds es (p0, p1) k ->
      k = 1%Z \/ (k <> 0%Z /\ forall d u v, List.In d (diff x xb) -> let th := theta_sum E iatan2 es (pt (fst (middle mid d))) (pt (snd (middle mid d))) in In u th -> In v th -> u - v < 2 * PI) ->
      inb [p0; p1] (snd r)).
  Proof.
    intros es i1 j1 i2 j2 p0 p1 CL W1 W2 W3 W4 H1 H2 x xb SE r.
    assert (inb [p0; p1] x) as Hx by (apply b_inter_in; auto).
    assert (exists i j, x = [i; j] /\ wf i /\ wf j) as (i & j & X & Wi & Wj).
    { pose proof (F2_len _ _ _ Hx) as L. assert (Forall wf x) as W by (apply b_inter_wf; auto). clearbody x. destruct x as [|i [|j [|? ?]]]; try discriminate L. inversion W as [|? ? ? W']; inversion W'; subst. eauto. }
    assert (Forall wf x) as Wx by (rewrite X; auto).
    destruct (poly_box es i j Wi Wj) as [Sb Wb]. rewrite <- X in Sb, Wb. fold xb in Sb, Wb.
    assert (normal xb) as NB by (unfold xb; rewrite X; apply poly_normal).
    assert (length xb = 2)%nat as Lb by (rewrite (F2_len _ _ _ Sb), X; reflexivity).
    assert (Forall (fun d => length d = 2%nat) (diff x xb)) as Ld by (apply Forall_forall; intros d Hd; rewrite (HL _ _ _ Hd), X; reflexivity).
    destruct (fold_keeps (in_polygon E iatan2 two_pi mid es) (diff x xb) (xb, xb) [p0; p1] Ld Lb Lb) as [F1 F2]. cbv zeta in F1, F2. cbn [fst snd] in F1, F2.
    change (fold_left _ _ _) with r in F1. change (fold_left _ _ _) with r in F2.
    destruct (classic (inb [p0; p1] xb)) as [Hb|Hb]; [refine (conj _ (conj _ _)); [split; [apply F1|apply F2]|intros _; apply F1|intros k _ _; apply F2]; left; exact Hb|].
    refine (conj _ _); [intros Q; exfalso; apply Hb; unfold xb; rewrite X; apply poly_keeps; auto; rewrite <- X; exact Hx|].
    destruct (d_cover diff HD x xb [p0; p1] Sb Wx Wb NB Hx Hb) as (d & Dd & Dp).
    destruct (SE d p0 p1 Dd Dp Hb) as [Md V].
    assert (forall k, winds es (p0, p1) k -> winds es (middle mid d) k) as WC.
    { intros k. apply (winds_constant es (p0, p1) (middle mid d) k); auto. intros s Hs. apply (poly_off es i j).
      - rewrite <- X. apply (d_in diff HD x xb d); auto. pose proof (Ld) as Q. rewrite Forall_forall in Q. specialize (Q d Dd). destruct d as [|di [|dj [|? ?]]]; try discriminate Q.
        inversion Dp as [|? ? ? ? A1 A2]; inversion A2 as [|? ? ? ? A3 A4]; subst. inversion Md as [|? ? ? ? B1 B2]; inversion B2 as [|? ? ? ? B3 B4]; subst.
        unfold along; cbn [fst snd] in *. constructor; [|constructor; [|constructor]].
        + apply conv_in; auto.
        + apply conv_in; auto.
      - specialize (V (1 - s) ltac:(lra)). unfold xb in V. rewrite X in V. intros Q. apply V. unfold along in *. cbn [fst snd] in *.
        replace (fst (middle mid d) + (1 - s) * (p0 - fst (middle mid d))) with (p0 + s * (fst (middle mid d) - p0)) by ring.
        replace (snd (middle mid d) + (1 - s) * (p1 - snd (middle mid d))) with (p1 + s * (snd (middle mid d) - p1)) by ring. exact Q. }
    refine (conj _ _).
    - intros W. apply F1. right. exists d. refine (conj Dd (conj Dp _)). intros Q. destruct (C96_middle_partial E iatan2 two_pi mid HE HA HP es d 0%Z (WC _ W)) as (D & _). apply D; auto.
    - intros k W Hk. apply F2. right. exists d. refine (conj Dd (conj Dp _)). intros Q. destruct (C96_middle_partial E iatan2 two_pi mid HE HA HP es d k (WC _ W)) as (_ & D2 & D3).
      destruct Hk as [Hk|[Hk N]]; [apply D2; auto|]. apply Hk, D3; auto. intros u v. apply (N d u v Dd).
  Qed.
  (** it only contracts, when the difference gives parts of the box *)
  Theorem C97_contracts : forall es i1 j1 i2 j2, wf i1 -> wf j1 -> wf i2 -> wf j2 ->
    let x := b_inter [i1; j1] [i2; j2] in let xb := poly_ctc cf cg es x in
    (forall d, List.In d (diff x xb) -> Forall2 sub d x /\ Forall wf d) ->
    let r := sep_polygon es [i1; j1] [i2; j2] in forall p, inb p (fst r) \/ inb p (snd r) -> inb p [i1; j1] /\ inb p [i2; j2].
  Proof.
    intros es i1 j1 i2 j2 W1 W2 W3 W4 x xb HX r p Hp.
    assert (exists i j, x = [i; j] /\ wf i /\ wf j) as (i & j & X & Wi & Wj).
    { assert (Forall2 sub x [i1; j1]) as S1 by (apply b_inter_sub; reflexivity). pose proof (F2_len _ _ _ S1) as L. assert (Forall wf x) as W by (apply b_inter_wf; auto). clear r HX Hp xb.
      clearbody x. destruct x as [|i [|j [|? ?]]]; try discriminate L. inversion W as [|? ? ? W']; inversion W'; subst. eauto. }
    assert (Forall2 sub (fst r) x /\ Forall wf (fst r) /\ Forall2 sub (snd r) x /\ Forall wf (snd r)) as (A1 & A2 & A3 & A4).
    { destruct (poly_box es i j Wi Wj) as [Sb Wb]. rewrite <- X in Sb, Wb. fold xb in Sb, Wb. unfold r, InPolygon.sep_polygon, sep_boundary. fold x. fold xb.
      assert (forall (q : box * box), Forall2 sub (fst q) x /\ Forall wf (fst q) /\ Forall2 sub (snd q) x /\ Forall wf (snd q) ->
        let f := fold_left (fun r d => match in_polygon E iatan2 two_pi mid es d with YES => (fst r, b_hull (snd r) d) | NO => (b_hull (fst r) d, snd r) | MAYBE => (b_hull (fst r) d, b_hull (snd r) d) end) (diff x xb) q in
        Forall2 sub (fst f) x /\ Forall wf (fst f) /\ Forall2 sub (snd f) x /\ Forall wf (snd f)) as G; [|apply (G (xb, xb)); refine (conj _ (conj _ (conj _ _))); auto].
      induction (diff x xb) as [|d ds IH]; intros q (B1 & B2 & B3 & B4) f; [refine (conj _ (conj _ (conj _ _))); auto|]. destruct (HX d (or_introl eq_refl)) as [C1 C2].
      unfold f. cbn [fold_left]. apply IH; [intros d' Hd'; apply HX; right; auto|]. destruct (in_polygon E iatan2 two_pi mid es d); cbn [fst snd]; refine (conj _ (conj _ (conj _ _))); auto; try apply b_hull_sub; try apply b_hull_wf; auto. }
    assert (inb p x) as Px by (destruct Hp as [Hp|Hp]; eapply inb_sub; eauto).
    clear - Px. unfold x, b_inter in Px. cbn [b_is_empty] in Px. destruct (is_empty i1) eqn:E1; [apply is_empty_true in E1; subst i1; inversion Px as [|? ? ? ? K0]; destruct K0|].
    destruct (is_empty i2) eqn:E2; [inversion Px as [|? ? ? ? K0]; destruct K0|]. cbn [map2] in Px. destruct (existsb _ _); [inversion Px as [|? ? ? ? K0]; destruct K0|].
    inversion Px as [|? ? ? ? K1 K2]; inversion K2 as [|? ? ? ? K3 K4]; inversion K4; subst. apply In_inter in K1 as [], K3 as []. split; (constructor; [|constructor; [|constructor]]); auto.
  Qed.
End Separator.

(** ** The difference of IBEX *)
(** the middle is strictly inside the intervals that are not a single value *)
Definition mid_ok (mid : itv -> R) : Prop := forall l h, wf (Itv l h) -> is_degenerated (Itv l h) = false ->
  (match l with Some a => a < mid (Itv l h) | None => True end) /\ (match h with Some b => mid (Itv l h) < b | None => True end).
Lemma slabs_len : forall x0 x d, List.In d (slabs x0 x) -> length d = length x0.
Proof.
  induction x0 as [|i0 x0 IH]; intros [|i x] d Hd; try destruct Hd. cbn [slabs] in Hd. apply in_app_or in Hd as [Hd|Hd]; apply in_map_iff in Hd as (c & <- & Hc); cbn; auto. f_equal. eauto.
Qed.
Lemma cdiff_len x0 x d : List.In d (cdiff x0 x) -> length d = length x0.
Proof. unfold cdiff. destruct (b_is_empty x); [intros [<-|[]]; auto|]. destruct (flat x0 x); [intros [<-|[]]; auto|]. apply slabs_len. Qed.
(** a side of an interval *)
Lemma idiff_side mid i0 i c : mid_ok mid -> wf i0 -> wf i -> sub i i0 -> List.In c (idiff i0 i) -> In (mid c) c /\ sub c i0 /\ wf c /\
  forall v s, In v c -> 0 <= s < 1 -> ~ In (mid c + s * (v - mid c)) i.
Proof.
  intros M W0 W S Hc. destruct i0 as [|l0 h0]; [destruct Hc|]. destruct i as [|l h]; [destruct Hc|]. cbn [idiff] in Hc. apply in_app_or in Hc as [Hc|Hc].
  - destruct l as [a|]; [|destruct Hc]. destruct (lo_leb (Some a) l0) eqn:L; [destruct Hc|]. destruct Hc as [<-|[]].
    assert (In a (Itv l0 h0)) as Ha by (apply S; destruct h; cbn in *; lra).
    assert (wf (Itv l0 (Some a)) /\ is_degenerated (Itv l0 (Some a)) = false) as [Wc Dc].
    { destruct l0 as [a0|]; cbn; [|split; auto]. cbn in L. apply Rleb_false in L. split; [lra|]. apply Reqb_f. lra. }
    destruct (M _ _ Wc Dc) as [M1 M2]. set (m := mid (Itv l0 (Some a))) in *. clearbody m. refine (conj _ (conj _ (conj Wc _))).
    + destruct l0; cbn; lra.
    + intros v Hv. destruct l0, h0; cbn in *; lra.
    + intros v s Hv Hs Q. assert (v <= a) by (destruct l0; cbn in Hv; lra). assert (a <= m + s * (v - m)) by (destruct h; cbn in Q; lra). nra.
  - destruct h as [b|]; [|destruct Hc]. destruct (hi_leb h0 (Some b)) eqn:L; [destruct Hc|]. destruct Hc as [<-|[]].
    assert (In b (Itv l0 h0)) as Ha by (apply S; destruct l; cbn in *; lra).
    assert (wf (Itv (Some b) h0) /\ is_degenerated (Itv (Some b) h0) = false) as [Wc Dc].
    { destruct h0 as [b0|]; cbn; [|split; auto]. cbn in L. apply Rleb_false in L. split; [lra|]. apply Reqb_f. lra. }
    destruct (M _ _ Wc Dc) as [M1 M2]. set (m := mid (Itv (Some b) h0)) in *. clearbody m. refine (conj _ (conj _ (conj Wc _))).
    + destruct h0; cbn; lra.
    + intros v Hv. destruct l0, h0; cbn in *; lra.
    + intros v s Hv Hs Q. assert (b <= v) by (destruct h0; cbn in Hv; lra). assert (m + s * (v - m) <= b) by (destruct l; cbn in Q; lra). nra.
Qed.
Lemma mid_in mid i v : mid_ok mid -> (forall a, mid (pt a) = a) -> wf i -> In v i -> In (mid i) i.
Proof.
  intros M P W H. destruct i as [|l h]; [destruct H|]. destruct (is_degenerated (Itv l h)) eqn:D.
  - destruct l as [a|], h as [b|]; cbn in D; try discriminate. apply Reqb_true in D. subst b. change (Itv (Some a) (Some a)) with (pt a). rewrite P. apply In_pt. auto.
  - destruct (M l h W D) as [M1 M2]. destruct l, h; cbn in *; lra.
Qed.
Lemma cdiff_sees mid i0 j0 i j : mid_ok mid -> (forall a, mid (pt a) = a) -> wf i0 -> wf j0 -> wf i -> wf j -> sub i i0 -> sub j j0 -> flat [i0; j0] [i; j] = false ->
  sees mid (cdiff [i0; j0] [i; j]) [i; j].
Proof.
  intros M P W1 W2 W3 W4 S1 S2 F d p0 p1 Hd Hp N. unfold cdiff in Hd. cbn [b_is_empty] in Hd. rewrite F in Hd.
  destruct (is_empty i) eqn:Ei.
  - destruct Hd as [<-|[]]. apply is_empty_true in Ei. subst i. inversion Hp as [|? ? ? ? A0 Hq]; inversion Hq as [|? ? ? ? A1 _]; subst. split.
    + constructor; [|constructor; [|constructor]]; cbn; eapply mid_in; eauto.
    + intros s _ Q. inversion Q as [|? ? ? ? K0]; destruct K0.
  - cbn [slabs map app] in Hd. rewrite ?app_nil_r in Hd. apply in_app_or in Hd as [Hd|Hd]; apply in_map_iff in Hd as (c & <- & Hc).
    + destruct (idiff_side mid i0 i c M W1 W3 S1 Hc) as (Mc & _ & _ & V). inversion Hp as [|? ? ? ? A0 Hq]; inversion Hq as [|? ? ? ? A1 _]; subst. split.
      * constructor; [|constructor; [|constructor]]; cbn; auto. eapply mid_in; eauto.
      * intros s Hs Q. destruct (Rlt_dec s 1) as [L|L].
        -- inversion Q as [|? ? ? ? Q0 _]; subst. apply (V p0 s A0 ltac:(lra)). exact Q0.
        -- assert (s = 1) by lra. subst s. rewrite along_1 in Q. exact (N Q).
    + apply in_map_iff in Hc as (c' & <- & Hc). destruct (idiff_side mid j0 j c' M W2 W4 S2 Hc) as (Mc & _ & _ & V). inversion Hp as [|? ? ? ? A0 Hq]; inversion Hq as [|? ? ? ? A1 _]; subst. split.
      * constructor; [|constructor; [|constructor]]; cbn; auto. eapply mid_in; eauto.
      * intros s Hs Q. destruct (Rlt_dec s 1) as [L|L].
        -- inversion Q as [|? ? ? ? _ Q0]; inversion Q0 as [|? ? ? ? Q1 _]; subst. apply (V p1 s A1 ltac:(lra)). exact Q1.
        -- assert (s = 1) by lra. subst s. rewrite along_1 in Q. exact (N Q).
Qed.
(** ** Separation with the difference of IBEX *)
Lemma cdiff_parts i0 j0 i j : wf i0 -> wf j0 -> wf i -> wf j -> sub i i0 -> sub j j0 -> forall d, List.In d (cdiff [i0; j0] [i; j]) -> Forall2 sub d [i0; j0] /\ Forall wf d.
Proof.
  intros W1 W2 W3 W4 S1 S2 d Hd. assert (Forall2 sub [i0; j0] [i0; j0] /\ Forall wf [i0; j0]) as R by (split; (constructor; [|constructor; [|constructor]]); auto using sub_refl).
  unfold cdiff in Hd. destruct (b_is_empty _); [destruct Hd as [<-|[]]; auto|]. destruct (flat _ _); [destruct Hd as [<-|[]]; auto|].
  set (m := fun i : itv => match i with Itv (Some a) (Some b) => (a + b) / 2 | Itv (Some a) None => a + 1 | Itv None (Some b) => b - 1 | _ => 0 end).
  assert (mid_ok m) as M by (intros [a|] [b|] W D; cbn in *; try (apply Reqb_false in D); split; try exact Logic.I; lra).
  cbn [slabs map app] in Hd. rewrite ?app_nil_r in Hd. apply in_app_or in Hd as [Hd|Hd]; apply in_map_iff in Hd as (c & <- & Hc).
  - destruct (idiff_side m i0 i c M W1 W3 S1 Hc) as (_ & Sc & Wc & _). split; (constructor; [|constructor; [|constructor]]); auto using sub_refl.
  - apply in_map_iff in Hc as (c' & <- & Hc). destruct (idiff_side m j0 j c' M W2 W4 S2 Hc) as (_ & Sc & Wc & _). split; (constructor; [|constructor; [|constructor]]); auto using sub_refl.
Qed.
(** When no component of the border box is reduced to a single value, the inside and outside points are separated; *)
Theorem C97_ibex_partial : forall E iatan2 two_pi mid cf cg es i j p0 p1, elem_ok E -> atan2_ok iatan2 -> In (2 * PI) two_pi -> mid_ok mid -> (forall a, mid (pt a) = a) ->
  keeps seg_f cf -> keeps seg_g cg -> contracts cf -> contracts cg -> gives_boxes cf -> gives_boxes cg -> (forall x, normal (cg x)) -> closed es -> wf i -> wf j -> In p0 i -> In p1 j ->
  flat [i; j] (poly_ctc cf cg es [i; j]) = false ->
  let r := sep_polygon E iatan2 two_pi mid cdiff cf cg es [i; j] [i; j] in
  (forall p, inb p (fst r) \/ inb p (snd r) -> inb p [i; j]) /\
  (Exists (fun e => ~ off (p0, p1) (fst e) (snd e)) es -> inb [p0; p1] (fst r) /\ inb [p0; p1] (snd r)) /\
  (winds es (p0, p1) 0 -> inb [p0; p1] (fst r)) /\ (winds es (p0, p1) 1 -> inb [p0; p1] (snd r)).
Proof.
  intros E iatan2 two_pi mid cf cg es i j p0 p1 HE HA HP M MP Kf Kg Cf Cg Bf Bg Ng CL Wi Wj H0 H1 F r.
  assert (b_inter [i; j] [i; j] = [i; j]) as BI.
  { unfold b_inter. cbn [b_is_empty]. destruct i as [|a b]; [destruct H0|]. destruct j as [|c d]; [destruct H1|]. cbn [is_empty map2]. rewrite !inter_sub_eq by (auto using sub_refl). reflexivity. }
  assert (inb [p0; p1] [i; j]) as Hp by (constructor; [|constructor; [|constructor]]; auto).
  assert (exists ib jb, poly_ctc cf cg es [i; j] = [ib; jb] /\ wf ib /\ wf jb /\ sub ib i /\ sub jb j) as (ib & jb & PB & Wib & Wjb & Sib & Sjb).
  { destruct (poly_box cf cg Cf Cg Bf Bg es i j Wi Wj) as [S W]. destruct (poly_ctc cf cg es [i; j]) as [|ib [|jb [|? ?]]]; inversion S as [|? ? ? ? S1 S']; inversion S' as [|? ? ? ? S2 S3]; inversion S3; subst.
    inversion W as [|? ? ? W']; inversion W'; subst. exists ib, jb. refine (conj eq_refl (conj _ (conj _ (conj _ _)))); auto. }
  refine (conj _ _).
  - intros p Q. eapply (C97_contracts E iatan2 two_pi mid cdiff cf cg Cf Cg Bf Bg es i j i j Wi Wj Wi Wj); [|exact Q]. rewrite BI, PB. apply cdiff_parts; auto.
  - destruct (C97_partial E iatan2 two_pi mid cdiff cf cg HE HA HP cdiff_ok cdiff_len Kf Kg Cf Cg Bf Bg Ng es i j i j p0 p1 CL Wi Wj Wi Wj Hp Hp) as (R1 & R2 & R3).
    + rewrite BI, PB. apply cdiff_sees; auto. rewrite <- PB. exact F.
    + refine (conj R1 (conj R2 _)). intros W. apply (R3 1%Z W). left. reflexivity.
Qed.

(** ** Instances *)
(** [ibex::atan2], exact at points *)
Definition atan2E (Y X : itv) : itv :=
  match Y, X with
  | Emp, _ | _, Emp => Emp
  | Itv (Some y) (Some y'), Itv (Some x) (Some x') => if Reqb y y' && Reqb x x' then pt (arg (x, y)) else bnd (- PI) PI
  | _, _ => bnd (- PI) PI
  end.
Lemma arg_unique t r x y : - PI < t <= PI -> 0 < r -> x = r * cos t -> y = r * sin t -> arg (x, y) = t.
Proof.
  intros Ht Hr -> ->. unfold arg. cbn [fst snd]. destruct (Req_dec t PI) as [->|N].
  - rewrite sin_PI, cos_PI, Rmult_0_r. destruct (Req_EM_T 0 0); [|lra]. destruct (Rlt_dec 0 (r * -1)); lra.
  - destruct (ang_unique t (r * cos t) (r * sin t) r ltac:(lra) Hr eq_refl eq_refl) as [A D]. destruct (Req_EM_T (r * sin t) 0) as [Z|Z]; auto.
    destruct D as [D|D]; [lra|]. destruct (Rlt_dec 0 (r * cos t)); [|lra]. rewrite <- A, Z. unfold ang. unfold Rdiv. rewrite Rmult_0_l, atan_0. ring.
Qed.
Lemma atan2E_ok : atan2_ok atan2E.
Proof.
  intros t r x y X Y Ht Hr Hx Hy HX HY. assert (In t (bnd (- PI) PI)) as B by (apply In_bnd; lra).
  destruct Y as [|[y1|] [y2|]], X as [|[x1|] [x2|]]; cbn [atan2E]; try exact B; try destruct HX; try destruct HY.
  destruct (Reqb y1 y2 && Reqb x1 x2) eqn:Q; [|exact B]. apply andb_true_iff in Q as [Q1 Q2]. apply Reqb_true in Q1, Q2. cbn in *. assert (x1 = x) as -> by lra. assert (y1 = y) as -> by lra. apply In_pt. symmetry. apply (arg_unique t r); auto.
Qed.
Definition midR (i : itv) : R := match i with Itv (Some a) (Some b) => (a + b) / 2 | Itv (Some a) None => a + 1 | Itv None (Some b) => b - 1 | _ => 0 end.
Lemma midR_ok : mid_ok midR.
Proof. intros [a|] [b|] W D; cbn in *; try (apply Reqb_false in D); split; try exact Logic.I; lra. Qed.
Lemma midR_pt a : midR (pt a) = a.
Proof. cbn. lra. Qed.
(** the operators at points *)
Lemma xadd_pt a b : xadd (pt a) (pt b) = pt (a + b). Proof. reflexivity. Qed.
Lemma xsub_pt a b : xsub (pt a) (pt b) = pt (a - b). Proof. reflexivity. Qed.
Lemma min4_same a : min4 a a a a = a. Proof. unfold min4. rewrite !Rmin_left; lra. Qed.
Lemma max4_same a : max4 a a a a = a. Proof. unfold max4. rewrite !Rmax_left; lra. Qed.
Lemma xmul_pt a b : xmul0 (pt a) (pt b) = pt (a * b).
Proof.
  unfold xmul0. destruct (itv_eqb (pt b) (pt 0)) eqn:Q.
  - apply itv_eqb_true in Q. injection Q as ->. cbn. rewrite Rmult_0_r. reflexivity.
  - cbn. rewrite min4_same, max4_same. reflexivity.
Qed.
Lemma xsqr_pt a : xsqr (pt a) = pt (a * a).
Proof. cbn. destruct (Rleb 0 a) eqn:Q; auto. apply Rleb_false in Q. destruct (Rleb a 0) eqn:P; auto. apply Rleb_false in P. lra. Qed.
Lemma xsqrt_pt a : xsqrt (pt a) = pt (sqrt a). Proof. reflexivity. Qed.
Lemma xdiv_pt a b : 0 < b -> xdiv (pt a) (pt b) = pt (a / b).
Proof. intros H. cbn. rewrite Reqb_f, Rltb_t by lra. cbn. rewrite min4_same, max4_same. reflexivity. Qed.
Lemma theta_pt es m : Forall (fun e => off m (fst e) (snd e)) es -> theta_sum ibexE atan2E es (pt (fst m)) (pt (snd m)) = pt (turn_sum es m).
Proof.
  intros O. pose proof (theta_in ibexE atan2E ibexE_ok atan2E_ok es m O) as T. enough (exists v, theta_sum ibexE atan2E es (pt (fst m)) (pt (snd m)) = pt v) as (v & V) by (rewrite V in *; apply In_pt in T; subst; reflexivity).
  unfold theta_sum. clear T. assert (forall u, exists v, fold_left (fun th e => iadd (ar ibexE) th (argument ibexE atan2E (pt (fst m)) (pt (snd m)) (fst (fst e)) (snd (fst e)) (fst (snd e)) (snd (snd e)))) es (pt u) = pt v) as G; [|apply G].
  induction O as [|e es Oe _ IH]; intros u; [exists u; reflexivity|]. cbn [fold_left].
  assert (exists v, argument ibexE atan2E (pt (fst m)) (pt (snd m)) (fst (fst e)) (snd (fst e)) (fst (snd e)) (snd (snd e)) = pt v) as (v & ->); [|apply (IH (u + v))].
  unfold argument. cbv zeta. cbn [ar idiv isqr isqrt ibexE iadd isub imul arith0]. rewrite !xsub_pt, !xsqr_pt, !xadd_pt, !xsqrt_pt, !xmul_pt, !xadd_pt, !xsub_pt.
  assert (N : forall p, p = fst e \/ p = snd e -> 0 < (fst p - fst m) * (fst p - fst m) + (snd p - snd m) * (snd p - snd m)).
  { intros p Hp. assert (p <> m) as NE by (destruct Hp as [-> | ->]; [rewrite <- (along_0 (fst e) (snd e))|rewrite <- (along_1 (fst e) (snd e))]; apply Oe; lra).
    pose proof (Rle_0_sqr (fst p - fst m)) as S1. pose proof (Rle_0_sqr (snd p - snd m)) as S2. unfold Rsqr in S1, S2.
    destruct (Req_dec (fst p) (fst m)) as [Qx|Nx]; [|assert (Q := Rsqr_pos_lt (fst p - fst m) ltac:(lra)); unfold Rsqr in Q; lra].
    destruct (Req_dec (snd p) (snd m)) as [Qy|Ny]; [destruct p, m; cbn in *; congruence|assert (Q := Rsqr_pos_lt (snd p - snd m) ltac:(lra)); unfold Rsqr in Q; lra]. }
  rewrite !xdiv_pt by (apply Rmult_lt_0_compat; apply sqrt_lt_R0; apply N; auto). cbn [atan2E pt]. rewrite !Reqb_refl. cbn [andb]. eexists. reflexivity.
Qed.
(** with these instances the test at a point is the winding number *)
Lemma test_pt es x k : winds es (middle midR x) k -> in_polygon ibexE atan2E (pt (2 * PI)) midR es x = if Z.eqb k 0 then NO else YES.
Proof.
  intros W. apply winds_sum in W as [W O]. unfold in_polygon. change (midR (nth 0 x Emp)) with (fst (middle midR x)). change (midR (nth 1 x Emp)) with (snd (middle midR x)). rewrite theta_pt, W by auto.
  pose proof PI_RGT_0. unfold decide_theta. destruct (Z.eqb k 0) eqn:K.
  - apply Z.eqb_eq in K. subst k. rewrite Rmult_0_l. destruct (contains (pt 0) 0) eqn:C; [|apply contains_false in C; exfalso; apply C, In_pt; auto]. cbn [negb].
    destruct (is_empty (inter (pt 0) (pt (2 * PI)))) eqn:I; [reflexivity|]. exfalso. unfold inter, pt in I. cbn in I. rewrite Rle_dec_f in I; [discriminate|]. rewrite Rmin_left, Rmax_right by lra. lra.
  - apply Z.eqb_neq in K. destruct (contains (pt _) 0) eqn:C; [|reflexivity]. exfalso. apply contains_true in C. apply In_pt in C. symmetry in C. apply Rmult_integral in C as [C|C]; [apply eq_IZR_R0 in C; auto|lra].
Qed.
(** ** Squares *)
Definition square (c : point) : list point := [(fst c - 1, snd c - 1); (fst c + 1, snd c - 1); (fst c + 1, snd c + 1); (fst c - 1, snd c + 1)].
Lemma square_edges c : edges (square c) =
  [((fst c - 1, snd c - 1), (fst c + 1, snd c - 1)); ((fst c + 1, snd c - 1), (fst c + 1, snd c + 1)); ((fst c + 1, snd c + 1), (fst c - 1, snd c + 1)); ((fst c - 1, snd c + 1), (fst c - 1, snd c - 1))].
Proof. reflexivity. Qed.
Lemma square_off c m : (fst m < fst c - 1 \/ fst c + 1 < fst m \/ snd m < snd c - 1 \/ snd c + 1 < snd m \/ (fst c - 1 < fst m < fst c + 1 /\ snd c - 1 < snd m < snd c + 1)) ->
  Forall (fun e => off m (fst e) (snd e)) (edges (square c)).
Proof.
  intros H. rewrite square_edges. destruct m as [mx my], c as [cx cy]. cbn [fst snd] in *.
  repeat (apply Forall_cons; [intros s Hs Q; unfold along in Q; cbn [fst snd] in Q; injection Q as Q1 Q2; lra|]). constructor.
Qed.
Lemma square_center c : winds (edges (square c)) c 1.
Proof.
  apply sum_winds; [apply square_off; repeat right; lra|]. rewrite square_edges. unfold turn_sum. cbn [map sumR fst snd]. unfold turn, dot, cross. cbn [fst snd].
  assert (A : forall x y, x = 0 -> y = 2 -> ang x y = PI / 2).
  { intros x y -> ->. destruct (ang_unique (PI / 2) 0 2 2) as [Q _]; auto; rewrite ?cos_PI2, ?sin_PI2; pose proof PI_RGT_0; lra. }
  rewrite !A by ring. lra.
Qed.
Lemma square_in c m : fst c - 1 < fst m < fst c + 1 -> snd c - 1 < snd m < snd c + 1 -> winds (edges (square c)) m 1.
Proof.
  intros H1 H2. apply (winds_constant _ c m); [apply edges_closed| |apply square_center]. intros s Hs. apply square_off. repeat right. unfold along. cbn [fst snd].
  split; split; nra.
Qed.
Lemma square_out c m : fst m < fst c - 1 \/ fst c + 1 < fst m \/ snd m < snd c - 1 \/ snd c + 1 < snd m -> winds (edges (square c)) m 0.
Proof.
  intros H. assert (Forall (fun e => off m (fst e) (snd e)) (edges (square c))) as O by (apply square_off; tauto).
  destruct (winds_exists _ m (edges_closed (square c)) O) as (k & K). replace 0%Z with k; auto.
  assert (G : forall n, Forall (fun e => 0 < fst n * (fst (fst e) - fst m) + snd n * (snd (fst e) - snd m) /\ 0 < fst n * (fst (snd e) - fst m) + snd n * (snd (snd e) - snd m)) (edges (square c)) -> k = 0%Z)
    by (intros n Hn; apply (winds_half _ m n k (edges_closed _) Hn K)).
  destruct H as [H|[H|[H|H]]]; [apply (G (1, 0))|apply (G (-1, 0))|apply (G (0, 1))|apply (G (0, -1))]; rewrite square_edges; repeat (apply Forall_cons; [cbn [fst snd]; split; lra|]); constructor.
Qed.
Definition testE := in_polygon ibexE atan2E (pt (2 * PI)) midR.
(** The answer is for the middle only: YES for a box with points outside, NO for a box with points inside. *)
Theorem C96_box_refuted : exists es, closed es /\
  (exists i j p, In (fst p) i /\ In (snd p) j /\ testE es [i; j] = YES /\ winds es p 0) /\
  (exists i j p, In (fst p) i /\ In (snd p) j /\ testE es [i; j] = NO /\ winds es p 1).
Proof.
  exists (edges (square (0, 0))). refine (conj (edges_closed _) (conj _ _)).
  - exists (I2 (-10) 10), (I2 (-10) 10), (5, 5). refine (conj _ (conj _ (conj _ _))); try (cbn; lra).
    + unfold testE. rewrite (test_pt _ _ 1); [reflexivity|]. apply square_in; cbn; lra.
    + apply square_out. cbn. lra.
  - exists (I2 0 10), (I2 0 (1 / 2)), (0, 0). refine (conj _ (conj _ (conj _ _))); try (cbn; lra).
    + unfold testE. rewrite (test_pt _ _ 0); [reflexivity|]. apply square_out; cbn; lra.
    + apply square_in; cbn; lra.
Qed.
(** boxes that do not meet the border *)
Example C96_box_example : (forall p, In (fst p) (I2 (-1/2) (1/4)) -> In (snd p) (I2 0 (1/2)) -> Forall (fun e => off p (fst e) (snd e)) (edges (square (0, 0)))) /\
  testE (edges (square (0, 0))) [I2 (-1/2) (1/4); I2 0 (1/2)] = YES /\ testE (edges (square (0, 0))) [I2 2 4; I2 0 (1/2)] = NO /\ atan2_ok atan2E /\ In (2 * PI) (pt (2 * PI)).
Proof.
  refine (conj _ (conj _ (conj _ (conj atan2E_ok _)))).
  - intros p H1 H2. apply square_off. cbn in *. lra.
  - unfold testE. rewrite (test_pt _ _ 1); [reflexivity|]. apply square_in; cbn; lra.
  - unfold testE. rewrite (test_pt _ _ 0); [reflexivity|]. apply square_out; cbn; lra.
  - apply In_pt. reflexivity.
Qed.

(** ** The separator on a square *)
(** a contractor for the second constraint of CtcSegment: the box around the ends *)
Definition cgE (x : box) : box :=
  match x with
  | [x0; x1; a0; a1; b0; b1] => let r := [inter x0 (hull a0 b0); inter x1 (hull a1 b1); a0; a1; b0; b1] in if existsb is_empty r then b_set_empty x else r
  | _ => b_set_empty x
  end.
Lemma hull_between a b x A B : In a A -> In b B -> Rmin a b <= x <= Rmax a b -> In x (hull A B).
Proof.
  intros Ha Hb H. pose proof (In_hull_l a A B Ha) as H1. pose proof (In_hull_r b A B Hb) as H2. revert H1 H2. generalize (hull A B). intros C H1 H2. unfold Rmin, Rmax in H. destruct C as [|[l|] [h|]]; cbn in *; auto; destruct (Rle_dec a b); lra.
Qed.
Lemma cgE_keeps : keeps seg_g cgE.
Proof.
  intros x p Hp S. destruct p as [|p0 [|p1 [|a0 [|a1 [|b0 [|b1 [|? ?]]]]]]]; try destruct S.
  inversion Hp as [|? X0 ? ? A0 Q0]; subst. inversion Q0 as [|? X1 ? ? A1 Q1]; subst. inversion Q1 as [|? X2 ? ? A2 Q2]; subst. inversion Q2 as [|? X3 ? ? A3 Q3]; subst. inversion Q3 as [|? X4 ? ? A4 Q4]; subst. inversion Q4 as [|? X5 ? ? A5 Q5]; subst. inversion Q5; subst.
  assert (In p0 (inter X0 (hull X2 X4))) as K0 by (apply In_inter; split; auto; apply (hull_between a0 b0); auto; lra).
  assert (In p1 (inter X1 (hull X3 X5))) as K1 by (apply In_inter; split; auto; apply (hull_between a1 b1); auto; lra).
  cbn [cgE]. set (r := [_; _; X2; X3; X4; X5]). assert (inb [p0; p1; a0; a1; b0; b1] r) as K by (repeat (constructor; auto)).
  destruct (existsb is_empty r) eqn:E; auto. exfalso. apply existsb_exists in E as (k & Hk & E). apply is_empty_true in E. subst k.
  clear - K Hk. revert Hk. generalize dependent r. intros r K. induction K; intros Hk; [destruct Hk|]. destruct Hk as [-> |Hk]; auto.
Qed.
Lemma cgE_contracts : contracts cgE.
Proof.
  intros x. destruct x as [|x0 [|x1 [|a0 [|a1 [|b0 [|b1 [|? ?]]]]]]]; try apply set_empty_sub. cbn [cgE]. cbv zeta. destruct (existsb _ _); [apply set_empty_sub|].
  repeat (constructor; [first [apply sub_refl|intros v Hv; apply In_inter in Hv; tauto]|]). constructor.
Qed.
Lemma cgE_boxes : gives_boxes cgE.
Proof.
  intros x W. assert (Forall wf (b_set_empty x)) as WE by (clear; induction x; cbn; constructor; auto; exact Logic.I).
  destruct x as [|x0 [|x1 [|a0 [|a1 [|b0 [|b1 [|? ?]]]]]]]; try exact WE. cbn [cgE]. cbv zeta. destruct (existsb _ _); [exact WE|].
  inversion W as [|? ? _ W0]; inversion W0 as [|? ? _ W1]; subst. repeat (apply Forall_cons; [apply wf_inter|]). exact W1.
Qed.
Lemma cgE_normal x : normal (cgE x).
Proof.
  assert (normal (b_set_empty x)) as NE by (destruct x; intros Q; [intros []|discriminate Q]).
  destruct x as [|x0 [|x1 [|a0 [|a1 [|b0 [|b1 [|? ?]]]]]]]; try exact NE. cbn [cgE]. cbv zeta. destruct (existsb _ _) eqn:E; [exact NE|].
  intros _ K. assert (existsb is_empty [inter x0 (hull a0 b0); inter x1 (hull a1 b1); a0; a1; b0; b1] = true) as Q by (apply existsb_exists; exists Emp; auto). rewrite Q in E. discriminate.
Qed.
Definition idC (x : box) : box := x.
Lemma idC_keeps P : keeps P idC. Proof. intros x p H _. exact H. Qed.
Lemma idC_contracts : contracts idC. Proof. intros x. apply F2_sub_refl. Qed.
Lemma idC_boxes : gives_boxes idC. Proof. intros x W. exact W. Qed.
Definition sepE (es : list segment) (x : box) : box * box := sep_polygon ibexE atan2E (pt (2 * PI)) midR cdiff idC cgE es x x.
Definition sq := edges (square (0, 0)).
(** one edge, on a box *)
Lemma edge_val ax ay bx by_ a b c d : ctc_segment2 idC cgE ax ay bx by_ [I2 a b; I2 c d] =
  let r0 := inter (I2 a b) (I2 (Rmin ax bx) (Rmax ax bx)) in let r1 := inter (I2 c d) (I2 (Rmin ay by_) (Rmax ay by_)) in
  if is_empty r0 || is_empty r1 then [Emp; Emp] else [r0; r1].
Proof.
  unfold ctc_segment2, idC, I2. cbn [firstn app b_is_empty is_empty cgE]. cbv zeta. change (hull (pt ax) (pt bx)) with (I2 (Rmin ax bx) (Rmax ax bx)). change (hull (pt ay) (pt by_)) with (I2 (Rmin ay by_) (Rmax ay by_)). unfold I2.
  set (r0 := inter (Itv (Some a) _) _). set (r1 := inter (Itv (Some c) _) _). destruct r0, r1; reflexivity.
Qed.
Ltac edge_tac := rewrite edge_val; cbv zeta; cbn [fst snd]; repeat match goal with |- context [Rmin ?u ?v] => progress rewrite ?(Rmin_left u v), ?(Rmin_right u v) by lra | |- context [Rmax ?u ?v] => progress rewrite ?(Rmax_left u v), ?(Rmax_right u v) by lra end;
  unfold inter, I2; cbn; reval; try reflexivity.
Lemma sq_edges : sq = [((-1, -1), (1, -1)); ((1, -1), (1, 1)); ((1, 1), (-1, 1)); ((-1, 1), (-1, -1))].
Proof. unfold sq. rewrite square_edges. cbn [fst snd]. repeat f_equal; lra. Qed.
Lemma poly_vals x r1 r2 r3 r4 : ctc_segment2 idC cgE (-1) (-1) 1 (-1) x = r1 -> ctc_segment2 idC cgE 1 (-1) 1 1 x = r2 -> ctc_segment2 idC cgE 1 1 (-1) 1 x = r3 -> ctc_segment2 idC cgE (-1) 1 (-1) (-1) x = r4 ->
  poly_ctc idC cgE sq x = b_hull (b_hull (b_hull (b_hull [Emp; Emp] r1) r2) r3) r4.
Proof. intros <- <- <- <-. rewrite sq_edges. reflexivity. Qed.
(** around the corner (1,1): the border box is not flat *)
Lemma corner_border : poly_ctc idC cgE sq [I2 (1/2) 2; I2 (1/2) 2] = [I2 (1/2) 1; I2 (1/2) 1].
Proof.
  rewrite (poly_vals _ [Emp; Emp] [I2 1 1; I2 (1/2) 1] [I2 (1/2) 1; I2 1 1] [Emp; Emp]) by edge_tac. unfold b_hull, hull, I2. cbn. reval. reflexivity.
Qed.
Lemma corner_diff : cdiff [I2 (1/2) 2; I2 (1/2) 2] [I2 (1/2) 1; I2 (1/2) 1] = [[I2 1 2; I2 (1/2) 2]; [I2 (1/2) 1; I2 1 2]].
Proof. unfold cdiff, I2. cbn. reval. reflexivity. Qed.
Example C97_example : flat [I2 (1/2) 2; I2 (1/2) 2] (poly_ctc idC cgE sq [I2 (1/2) 2; I2 (1/2) 2]) = false /\
  sepE sq [I2 (1/2) 2; I2 (1/2) 2] = ([I2 (1/2) 2; I2 (1/2) 2], [I2 (1/2) 1; I2 (1/2) 1]) /\ winds sq (3/4, 3/4) 1 /\ winds sq (3/2, 3/4) 0.
Proof.
  refine (conj _ (conj _ (conj _ _))).
  - rewrite corner_border. unfold I2. cbn. reval. reflexivity.
  - unfold sepE, sep_polygon, sep_boundary. assert (b_inter [I2 (1/2) 2; I2 (1/2) 2] [I2 (1/2) 2; I2 (1/2) 2] = [I2 (1/2) 2; I2 (1/2) 2]) as -> by (unfold b_inter, inter, I2; cbn; reval; reflexivity).
    rewrite corner_border, corner_diff. cbn [fold_left]. rewrite !(test_pt _ _ 0) by (apply square_out; cbn; lra). cbn [Z.eqb fst snd]. f_equal. unfold b_hull, hull, I2. cbn. reval. reflexivity.
  - apply square_in; cbn; lra.
  - apply square_out; cbn; lra.
Qed.
(** across the edge x = 1: the border box is flat, the difference gives the whole box, whose middle is outside; the point (3/4,0) of the
    square is then removed from the second box *)
Theorem C97_flat_refuted : exists es x0 x1 p0 p1, closed es /\ keeps seg_f idC /\ keeps seg_g cgE /\ contracts idC /\ contracts cgE /\ (forall x, normal (cgE x)) /\
  wf x0 /\ wf x1 /\ inb [p0; p1] [x0; x1] /\ winds es (p0, p1) 1 /\ ~ inb [p0; p1] (snd (sepE es [x0; x1])).
Proof.
  exists sq, (I2 (1/2) 2), (I2 (-1/2) (1/2)), (3/4), 0. refine (conj (edges_closed _) (conj (idC_keeps _) (conj cgE_keeps (conj idC_contracts (conj cgE_contracts (conj cgE_normal _)))))).
  refine (conj _ (conj _ (conj _ (conj _ _)))); try (cbn; lra).
  - constructor; [|constructor; [|constructor]]; cbn; lra.
  - apply square_in; cbn; lra.
  - assert (sepE sq [I2 (1/2) 2; I2 (-1/2) (1/2)] = ([I2 (1/2) 2; I2 (-1/2) (1/2)], [I2 1 1; I2 (-1/2) (1/2)])) as ->.
    { unfold sepE, sep_polygon, sep_boundary. assert (b_inter [I2 (1/2) 2; I2 (-1/2) (1/2)] [I2 (1/2) 2; I2 (-1/2) (1/2)] = [I2 (1/2) 2; I2 (-1/2) (1/2)]) as -> by (unfold b_inter, inter, I2; cbn; reval; reflexivity).
      assert (poly_ctc idC cgE sq [I2 (1/2) 2; I2 (-1/2) (1/2)] = [I2 1 1; I2 (-1/2) (1/2)]) as ->.
      { rewrite (poly_vals _ [Emp; Emp] [I2 1 1; I2 (-1/2) (1/2)] [Emp; Emp] [Emp; Emp]) by edge_tac. reflexivity. }
      assert (cdiff [I2 (1/2) 2; I2 (-1/2) (1/2)] [I2 1 1; I2 (-1/2) (1/2)] = [[I2 (1/2) 2; I2 (-1/2) (1/2)]]) as -> by (unfold cdiff, I2; cbn; reval; reflexivity).
      cbn [fold_left]. rewrite !(test_pt _ _ 0) by (apply square_out; cbn; lra). cbn [Z.eqb fst snd]. f_equal. unfold b_hull, hull, I2. cbn. reval. reflexivity. }
    cbn [snd]. intros Q. inversion Q as [|? ? ? ? K _]; subst. cbn in K. lra.
Qed.
Print Assumptions C96_middle_partial.
Print Assumptions C96_box_partial.
Print Assumptions C96_box_refuted.
Print Assumptions C97_partial.
Print Assumptions C97_contracts.
Print Assumptions C97_ibex_partial.
Print Assumptions C97_flat_refuted.
