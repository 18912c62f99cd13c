(** * C14, C15: integrals computed with the synthesis tree *)
From Coq Require Import Reals Lra Bool List Arith Lia.
Import ListNotations.
From Verif Require Import Itv Arith Tube TubeSpec TubeFacts TubeOps TubeOpsFacts TubeOpsFacts2 TubeQueries TubeQueries2 Concrete DynSpec
  Integral PropsIntegral Tree PropsTree.
Open Scope R_scope.
Set Bullet Behavior "Strict Subproofs".
Local Arguments Nat.div2 : simpl never.
Local Arguments Nat.ltb : simpl never.

(** every codomain is a non-empty bounded interval *)
Definition bounded (x : tube) : Prop := forall s, List.In s x -> exists l h, s_cod s = Itv (Some l) (Some h) /\ l <= h.

(** ** Primitives of the bounds of a tube *)
Lemma area_in sel : forall x a b k s t, chain_from a x b -> nth_error x k = Some s -> s_lb s <= t <= s_ub s ->
  area sel x t = area sel x (s_lb s) + (t - s_lb s) * sel (s_cod s).
Proof.
  induction x as [|s0 x IH]; intros a b k s t Hc Hk Ht; [destruct k; discriminate|]. cbn [chain_from] in Hc. destruct Hc as (E & Hlt & Hc).
  destruct k as [|k]; cbn [nth_error] in Hk; cbn [area].
  - inversion Hk; subst s0. rewrite !clamp_id by lra. rewrite !(area_zero sel x (s_ub s) b) by (auto; lra). lra.
  - assert (B : s_ub s0 <= s_lb s). { destruct (chain_in_bounds _ _ _ _ Hc (nth_error_In _ _ Hk)) as (B & _). lra. }
    rewrite (IH _ _ _ _ t Hc Hk Ht). rewrite !(clamp_hi (s_lb s0) (s_ub s0)) by lra. lra.
Qed.
Definition span (sel : itv -> R) (x : tube) (s : slice) : itv :=
  Itv (Some (Rmin (area sel x (s_lb s)) (area sel x (s_ub s)))) (Some (Rmax (area sel x (s_lb s)) (area sel x (s_ub s)))).

Lemma mul_dt l h dt : l <= h -> 0 <= dt -> xmul (Itv (Some l) (Some h)) (pt dt) = Itv (Some (l * dt)) (Some (h * dt)).
Proof.
  intros H Hd. cbn. unfold min4, max4. pose proof (Rmult_le_compat_r dt l h Hd H).
  rewrite (Rmin_left (l * dt) (l * dt)), (Rmin_left (h * dt) (h * dt)), (Rmax_left (l * dt) (l * dt)), (Rmax_left (h * dt) (h * dt)) by lra.
  rewrite Rmin_left, Rmax_right by lra. auto.
Qed.
Lemma mul_range l h dt : l <= h -> 0 <= dt -> xmul (Itv (Some l) (Some h)) (bnd 0 dt) = Itv (Some (Rmin 0 (l * dt))) (Some (Rmax 0 (h * dt))).
Proof.
  intros H Hd. rewrite (bnd_lt 0 dt Hd). cbn. unfold min4, max4. rewrite !Rmult_0_r.
  pose proof (Rmult_le_compat_r dt l h Hd H). f_equal; f_equal.
  - destruct (Rle_dec 0 (l * dt)); [rewrite (Rmin_left 0 (l * dt)), (Rmin_left 0 (h * dt)) by lra; apply Rmin_left; lra|].
    rewrite (Rmin_right 0 (l * dt)) by lra. destruct (Rle_dec 0 (h * dt)); [rewrite (Rmin_left 0 (h * dt)) by lra|rewrite (Rmin_right 0 (h * dt)) by lra]; apply Rmin_left; lra.
  - destruct (Rle_dec 0 (h * dt)); [rewrite (Rmax_right 0 (h * dt)) by lra|rewrite (Rmax_left 0 (h * dt)) by lra];
    (destruct (Rle_dec 0 (l * dt)); [rewrite (Rmax_right 0 (l * dt)) by lra|rewrite (Rmax_left 0 (l * dt)) by lra]); apply Rmax_right; lra.
Qed.
Lemma prim_of_ok L H l h dt : L <= H -> l <= h -> 0 <= dt ->
  prim_of (xadd (Itv (Some L) (Some H)) (xmul (Itv (Some l) (Some h)) (bnd 0 dt))) (Itv (Some l) (Some h)) dt =
  (Itv (Some (Rmin L (L + dt * l))) (Some (Rmax L (L + dt * l))), Itv (Some (Rmin H (H + dt * h))) (Some (Rmax H (H + dt * h)))).
Proof.
  intros HL Hl Hd. rewrite mul_range by auto. cbn -[Rmin Rmax]. unfold prim_of; cbn -[Rmin Rmax Rabs bnd].
  f_equal.
  - destruct (Rle_dec 0 (l * dt)).
    + rewrite (Rmin_left 0), Rabs_pos_eq by auto. rewrite Rle_dec_t by lra. rewrite Rmin_left, Rmax_right by lra. f_equal; f_equal; ring.
    + rewrite (Rmin_right 0), Rabs_left by lra. rewrite Rle_dec_t by lra. rewrite Rmin_right, Rmax_left by lra. f_equal; f_equal; ring.
  - destruct (Rle_dec 0 (h * dt)).
    + rewrite (Rmax_right 0), Rabs_pos_eq by auto. rewrite Rle_dec_t by lra. rewrite Rmin_left, Rmax_right by lra. f_equal; f_equal; ring.
    + rewrite (Rmax_left 0), Rabs_left by lra. rewrite Rle_dec_t by lra. rewrite Rmin_right, Rmax_left by lra. f_equal; f_equal; ring.
Qed.
Lemma prims_gen : forall x a b L H, chain_from a x b -> bounded x -> L <= H ->
  prims (Itv (Some L) (Some H)) x =
  map (fun s => (Itv (Some (Rmin (L + area lo x (s_lb s)) (L + area lo x (s_ub s)))) (Some (Rmax (L + area lo x (s_lb s)) (L + area lo x (s_ub s)))),
                 Itv (Some (Rmin (H + area hi x (s_lb s)) (H + area hi x (s_ub s)))) (Some (Rmax (H + area hi x (s_lb s)) (H + area hi x (s_ub s)))))) x.
Proof.
  induction x as [|s x IH]; intros a b L H Hc Hb HL; auto. pose proof Hc as Hc0. cbn [chain_from] in Hc. destruct Hc as (E & Hlt & Hc).
  destruct (Hb s (or_introl eq_refl)) as (l & h & Ey & Hlh). cbn [prims map]. rewrite Ey.
  change (iadd exact) with xadd. change (imul exact) with xmul.
  rewrite (prim_of_ok L H l h) by lra. rewrite (mul_dt l h) by lra. cbn [xadd pt oadd].
  change (xadd (Itv (Some L) (Some H)) (Itv (Some (l * (s_ub s - s_lb s))) (Some (h * (s_ub s - s_lb s))))) with
    (Itv (Some (L + l * (s_ub s - s_lb s))) (Some (H + h * (s_ub s - s_lb s)))).
  f_equal.
  - rewrite (area_zero lo (s :: x) a b), (area_zero hi (s :: x) a b) by (auto; lra).
    rewrite (area_in lo (s :: x) a b 0 s (s_ub s)), (area_in hi (s :: x) a b 0 s (s_ub s)) by (auto; lra).
    rewrite (area_zero lo (s :: x) a b (s_lb s)), (area_zero hi (s :: x) a b (s_lb s)) by (auto; lra). rewrite Ey. cbn [lo hi].
    rewrite !Rplus_0_r, !Rplus_0_l. auto.
  - assert (Hb' : bounded x) by (intros s' Hs'; apply Hb; right; auto).
    pose proof (Rmult_le_compat_r (s_ub s - s_lb s) l h). rewrite (IH (s_ub s) b _ _ Hc Hb') by lra.
    apply map_ext_in. intros s' Hs'. destruct (chain_in_bounds _ _ _ _ Hc Hs') as (B1 & B2 & B3).
    cbn [area]. rewrite !(clamp_hi (s_lb s) (s_ub s)) by lra. rewrite Ey. cbn [lo hi].
    assert (Q : forall c y d v, c + y * d + v = c + (d * y + v)) by (intros; ring). rewrite !Q. auto.
Qed.
Lemma prims_ok x a b k s : chain_from a x b -> bounded x -> nth_error x k = Some s ->
  nth k (prims (pt 0) x) (ALL, ALL) = (span lo x s, span hi x s).
Proof.
  intros Hc Hb Hk. unfold pt. rewrite (prims_gen x a b 0 0 Hc Hb) by lra. apply nth_error_nth. rewrite nth_error_map, Hk. cbn. unfold span.
  rewrite !Rplus_0_l. auto.
Qed.

(** ** Coverage *)
Definition covers (F : R -> R) (i : itv) (a b : R) : Prop := forall t, a <= t <= b -> In (F t) i.
Lemma covers_hull F i j a b c : covers F i a b -> covers F j b c -> covers F (hull i j) a c.
Proof. intros H1 H2 t Ht. destruct (Rle_dec t b); [apply In_hull_l, H1|apply In_hull_r, H2]; lra. Qed.

Lemma In_hull_between u v w : Rmin u v <= w <= Rmax u v -> In w (Itv (Some (Rmin u v)) (Some (Rmax u v))).
Proof. intros H. exact H. Qed.
Lemma lin_between u y d d' : 0 <= d' <= d -> Rmin u (u + d * y) <= u + d' * y <= Rmax u (u + d * y).
Proof.
  intros Hd. destruct (Rle_dec 0 y) as [Hy|Hy].
  - pose proof (Rmult_le_compat_r y 0 d' Hy). pose proof (Rmult_le_compat_r y d' d Hy). rewrite Rmin_left, Rmax_right; lra.
  - assert (Hy' : 0 <= -y) by lra. pose proof (Rmult_le_compat_r (-y) 0 d' Hy'). pose proof (Rmult_le_compat_r (-y) d' d Hy'). rewrite Rmin_right, Rmax_left; lra.
Qed.
Lemma span_covers sel x a b k s : chain_from a x b -> nth_error x k = Some s -> covers (area sel x) (span sel x s) (s_lb s) (s_ub s).
Proof.
  intros Hc Hk t Ht. unfold span. rewrite (area_in sel x a b k s t), (area_in sel x a b k s (s_ub s)) by (auto; lra).
  apply In_hull_between. apply lin_between. lra.
Qed.

(** caches that hold the primitives [ps] of the slices *)
Fixpoint fresh (ps : list ipair) (t : tree) : Prop :=
  match t with
  | Leaf k m => m_pp m = nth k ps (ALL, ALL)
  | Node _ m t1 t2 => fresh ps t1 /\ fresh ps t2 /\ m_pp m = pair_hull (m_pp (mem t1)) (m_pp (mem t2))
  end.

Section Fresh.
  Variables (x : tube) (a b : R).
  Hypothesis Hc : chain_from a x b.
  Hypothesis Hb : bounded x.
  Let ps := prims (pt 0) x.
  Lemma fresh_covers : forall t k d c e, shape (skel t) k d -> dchain c d e -> placed x k d -> fresh ps t ->
    covers (area lo x) (fst (m_pp (mem t))) c e /\ covers (area hi x) (snd (m_pp (mem t))) c e.
  Proof.
    induction t as [k' m|n m t1 IH1 t2 IH2]; intros k d c e Hs Hd Hp Hf; cbn [skel] in Hs; sinv Hs; cbn [mem].
    - cbn [fresh] in Hf. rewrite Hf. destruct (Hp 0%nat _ eq_refl) as (s & Hk & El). rewrite Nat.add_0_r in Hk.
      unfold ps. rewrite (prims_ok x a b _ s Hc Hb Hk). cbn [fst snd]. cbn in Hd. destruct Hd as (E1 & E2 & E3). inversion El. subst.
      split; rewrite <- ?H0, <- ?H1; apply (span_covers _ x a b _ s Hc Hk).
    - destruct Hf as (F1 & F2 & ->). apply dchain_app in Hd. destruct Hd as (m' & D1 & D2). destruct (placed_app _ _ _ _ Hp) as (P1 & P2).
      destruct (IH1 _ _ _ _ S1 D1 P1 F1) as (A1 & A2). destruct (IH2 _ _ _ _ S2 D2 P2 F2) as (B1 & B2).
      split; cbn [pair_hull fst snd]; eapply covers_hull; eauto.
  Qed.

  Lemma prim_bounds_covers : forall t k d c e u v, shape (skel t) k d -> dchain c d e -> placed x k d -> fresh ps t ->
    c <= u -> u < v -> v <= e ->
    covers (area lo x) (fst (prim_bounds t (Itv (Some u) (Some v)))) u v /\
    covers (area hi x) (snd (prim_bounds t (Itv (Some u) (Some v)))) u v.
  Proof.
    induction t as [k' m|n m t1 IH1 t2 IH2]; intros k d c e u v Hs Hd Hp Hf Hu Huv Hv;
      destruct (fresh_covers _ _ _ _ _ Hs Hd Hp Hf) as (W1 & W2); destruct (shape_bounds _ _ _ Hs _ _ Hd) as (B1 & B2);
      cbn [prim_bounds]; change (itv_eqb (Itv (Some u) (Some v)) ALL) with false; cbv iota;
      rewrite dom_skel, B1, B2, (inter_pts_max c e) by lra; rewrite (Rmax_right c u), (Rmin_right e v), (bnd_lt u v) by lra; cbn [is_empty]; cbv iota.
    - cbn [mem] in W1, W2. split; intros t Ht; [apply W1|apply W2]; lra.
    - destruct (itv_eqb _ _ || is_superset _ _).
      { cbn [mem] in W1, W2. split; intros t Ht; [apply W1|apply W2]; lra. }
      clear W1 W2. cbn [skel] in Hs. sinv Hs. cbn [fresh] in Hf. destruct Hf as (F1 & F2 & _).
      apply dchain_app in Hd. destruct Hd as (m' & D1 & D2). destruct (placed_app _ _ _ _ Hp) as (P1 & P2).
      destruct (shape_bounds _ _ _ S1 _ _ D1) as (C1 & C2). destruct (shape_bounds _ _ _ S2 _ _ D2) as (C3 & C4).
      destruct (dchain_le _ _ _ D1) as (_ & L1). specialize (L1 (shape_ne _ _ _ S1)).
      destruct (dchain_le _ _ _ D2) as (_ & L2). specialize (L2 (shape_ne _ _ _ S2)).
      rewrite !dom_skel, C1, C2, C3, C4. rewrite !inter_pts_max by lra. rewrite (Rmax_right c u), (Rmin_right e v) by lra.
      destruct (Rle_dec v m') as [V|V].
      + rewrite (bnd_deg (Rmax m' u) v) by (pose proof (Rmax_l m' u); lra). rewrite (Rmin_right m' v), (bnd_lt u v), deg_no by lra. cbn [andb].
        apply (IH1 _ _ _ _ _ _ S1 D1 P1 F1); lra.
      + destruct (Rle_dec m' u) as [U|U].
        * rewrite (bnd_deg u (Rmin m' v)) by (pose proof (Rmin_l m' v); lra). rewrite (Rmax_right m' u), (bnd_lt u v), deg_no by lra. cbn [andb].
          apply (IH2 _ _ _ _ _ _ S2 D2 P2 F2); lra.
        * rewrite (Rmin_left m' v), (Rmax_left m' u), !bnd_lt, !deg_no by lra. cbn [andb pair_hull fst snd].
          destruct (IH1 _ _ _ _ u m' S1 D1 P1 F1) as (X1 & X2); try lra.
          destruct (IH2 _ _ _ _ m' v S2 D2 P2 F2) as (Y1 & Y2); try lra.
          split; eapply covers_hull; eauto.
  Qed.
  Lemma leaf_pp_ok : forall t k d i, shape (skel t) k d -> fresh ps t -> (i < length d)%nat -> leaf_pp t i = nth (k + i) ps (ALL, ALL).
  Proof.
    induction t as [k' m|n m t1 IH1 t2 IH2]; intros k d i Hs Hf Hi; cbn [skel] in Hs; sinv Hs; cbn [leaf_pp].
    - cbn in Hi. replace i with 0%nat by lia. rewrite Nat.add_0_r. exact Hf.
    - cbn [fresh] in Hf. destruct Hf as (F1 & F2 & _). rewrite app_length in Hi. rewrite skel_nb, (shape_len _ _ _ S1).
      destruct (Nat.ltb i (length d1)) eqn:E; [apply Nat.ltb_lt in E|apply Nat.ltb_ge in E].
      + apply (IH1 _ _ _ S1 F1 E).
      + rewrite (IH2 _ _ _ S2 F2) by lia. f_equal. lia.
  Qed.

  (** the values on [c,e] are in [i], or [i] is empty and the primitive is constant, on a slice of bound 0 *)
  Definition okz (sel : itv -> R) (i : itv) (c e : R) : Prop :=
    covers (area sel x) i c e \/
    (i = Emp /\ (forall t, c <= t <= e -> area sel x t = area sel x c) /\ exists s, List.In s x /\ s_lb s <= c <= s_ub s /\ sel (s_cod s) = 0).
  Lemma okz_hull sel i j c d e : c <= d -> d <= e -> okz sel i c d -> okz sel j d e -> okz sel (hull i j) c e.
  Proof.
    intros H1 H2 [A|(-> & A & As)] [B|(-> & B & Bs)].
    - left. eapply covers_hull; eauto.
    - left. rewrite hull_Emp_r. intros t Ht. destruct (Rle_dec t d); [apply A; lra|]. rewrite B by lra. apply A. lra.
    - left. cbn [hull]. intros t Ht. destruct (Rle_dec t d); [|apply B; lra]. rewrite A by lra. rewrite <- (A d) by lra. apply B. lra.
    - right. split; auto. split; auto. intros t Ht. destruct (Rle_dec t d); [apply A; lra|]. rewrite B by lra. apply A. lra.
  Qed.
  Lemma okz_sub sel i c d e : c <= d -> okz sel i c e -> covers (area sel x) i c e -> okz sel i d e.
  Proof. intros H _ A. left. intros t Ht. apply A. lra. Qed.
  Lemma by_sign_acc y p q acc : by_sign y p q acc = hull acc (by_sign y p q Emp).
  Proof. unfold by_sign. destruct (Rltb y 0); auto. destruct (Rltb 0 y); auto. rewrite hull_Emp_r; auto. Qed.

  (** the partial case, on [c,e] inside of the slice [s] *)
  Lemma piece_lo k s c e p q : nth_error x k = Some s -> s_lb s <= c -> c <= e -> e <= s_ub s ->
    let l := lo (span lo x s) in let y := lo (s_cod s) in
    (y < 0 -> p = bnd (l - y * (s_ub s - e)) (l - y * (s_ub s - c))) ->
    (0 < y -> q = bnd (l + y * (c - s_lb s)) (l + y * (e - s_lb s))) -> okz lo (by_sign y p q Emp) c e.
  Proof.
    intros Hk H1 H2 H3 l y Hp Hq.
    assert (E : forall t, s_lb s <= t <= s_ub s -> area lo x t = area lo x (s_lb s) + (t - s_lb s) * y) by (intros t Ht; apply (area_in lo x a b k s t Hc Hk Ht)).
    assert (El : l = Rmin (area lo x (s_lb s)) (area lo x (s_ub s))) by reflexivity.
    rewrite (E (s_ub s)) in El by lra. set (v := area lo x (s_lb s)) in *. clearbody l v. unfold by_sign.
    destruct (Rltb y 0) eqn:E1; [apply Rltb_true in E1|apply Rltb_false in E1; destruct (Rltb 0 y) eqn:E2; [apply Rltb_true in E2|apply Rltb_false in E2]].
    - left. intros t Ht. rewrite E by lra. rewrite Hp by auto. cbn [hull]. apply In_bnd.
      assert (El' : l = v + (s_ub s - s_lb s) * y). { rewrite El. apply Rmin_right. pose proof (Rmult_le_compat_neg_l y 0 (s_ub s - s_lb s)). lra. }
      rewrite El'. pose proof (Rmult_le_compat_neg_l y t e). pose proof (Rmult_le_compat_neg_l y c t). lra.
    - left. intros t Ht. rewrite E by lra. rewrite Hq by auto. cbn [hull]. apply In_bnd.
      assert (El' : l = v). { rewrite El. apply Rmin_left. pose proof (Rmult_le_compat_l y 0 (s_ub s - s_lb s)). lra. }
      rewrite El'. pose proof (Rmult_le_compat_l y t e). pose proof (Rmult_le_compat_l y c t). lra.
    - right. assert (Ey : y = 0) by lra. split; auto. split.
      + intros t Ht. rewrite !E by lra. rewrite Ey. lra.
      + exists s. split; [eapply nth_error_In; eauto|]. split; [lra|exact Ey].
  Qed.
  Lemma piece_hi k s c e p q : nth_error x k = Some s -> s_lb s <= c -> c <= e -> e <= s_ub s ->
    let h := hi (span hi x s) in let y := hi (s_cod s) in
    (y < 0 -> p = bnd (h + y * (e - s_lb s)) (h + y * (c - s_lb s))) ->
    (0 < y -> q = bnd (h - y * (s_ub s - c)) (h - y * (s_ub s - e))) -> okz hi (by_sign y p q Emp) c e.
  Proof.
    intros Hk H1 H2 H3 h y Hp Hq.
    assert (E : forall t, s_lb s <= t <= s_ub s -> area hi x t = area hi x (s_lb s) + (t - s_lb s) * y) by (intros t Ht; apply (area_in hi x a b k s t Hc Hk Ht)).
    assert (El : h = Rmax (area hi x (s_lb s)) (area hi x (s_ub s))) by reflexivity.
    rewrite (E (s_ub s)) in El by lra. set (v := area hi x (s_lb s)) in *. clearbody h v. unfold by_sign.
    destruct (Rltb y 0) eqn:E1; [apply Rltb_true in E1|apply Rltb_false in E1; destruct (Rltb 0 y) eqn:E2; [apply Rltb_true in E2|apply Rltb_false in E2]].
    - left. intros t Ht. rewrite E by lra. rewrite Hp by auto. cbn [hull]. apply In_bnd.
      assert (El' : h = v). { rewrite El. apply Rmax_left. pose proof (Rmult_le_compat_neg_l y 0 (s_ub s - s_lb s)). lra. }
      rewrite El'. pose proof (Rmult_le_compat_neg_l y t e). pose proof (Rmult_le_compat_neg_l y c t). lra.
    - left. intros t Ht. rewrite E by lra. rewrite Hq by auto. cbn [hull]. apply In_bnd.
      assert (El' : h = v + (s_ub s - s_lb s) * y). { rewrite El. apply Rmax_right. pose proof (Rmult_le_compat_l y 0 (s_ub s - s_lb s)). lra. }
      rewrite El'. pose proof (Rmult_le_compat_l y t e). pose proof (Rmult_le_compat_l y c t). lra.
    - right. assert (Ey : y = 0) by lra. split; auto. split.
      + intros t Ht. rewrite !E by lra. rewrite Ey. lra.
      + exists s. split; [eapply nth_error_In; eauto|]. split; [lra|exact Ey].
  Qed.
  Lemma partA_ok k s tl tu : nth_error x k = Some s -> s_lb s <= tl <= s_ub s -> tl <= tu ->
    let r := partA s (span lo x s, span hi x s) tl tu in
    okz lo (fst r) tl (Rmin tu (s_ub s)) /\ okz hi (snd r) tl (Rmin tu (s_ub s)).
  Proof.
    intros Hk Ht Htu r. assert (Hm : tl <= Rmin tu (s_ub s) <= s_ub s) by (split; [apply Rmin_glb; lra|apply Rmin_r]).
    unfold r, partA. destruct (is_subset (s_dom s) (bnd tl tu)); cbn [fst snd].
    - split; left; intros t Htt; apply (span_covers _ x a b k s Hc Hk); lra.
    - split; [apply (piece_lo k s)|apply (piece_hi k s)]; auto; lra.
  Qed.
  Lemma partC_ok k s tl tu c acc : nth_error x k = Some s -> s_lb s <= tu <= s_ub s -> c <= s_lb s ->
    okz lo (fst acc) c (s_lb s) -> okz hi (snd acc) c (s_lb s) ->
    let r := partC s (span lo x s, span hi x s) tl tu acc in
    okz lo (fst r) c tu /\ okz hi (snd r) c tu.
  Proof.
    intros Hk Ht Hc' A1 A2 r. unfold r, partC. destruct (is_subset (s_dom s) (bnd tl tu)); cbn [fst snd pair_hull].
    - split; apply okz_hull with (d := s_lb s); auto; try lra; left; intros t Htt; apply (span_covers _ x a b k s Hc Hk); lra.
    - rewrite (by_sign_acc _ _ _ (fst acc)), (by_sign_acc _ _ _ (snd acc)).
      split; apply okz_hull with (d := s_lb s); auto; try lra; [apply (piece_lo k s)|apply (piece_hi k s)]; auto; try lra.
      + intros _. f_equal; ring.
      + intros _. f_equal; ring.
  Qed.

  Lemma span_not_bad s : pp_bad (span lo x s, span hi x s) = None.
  Proof. reflexivity. Qed.
  Lemma index_spec t : x <> [] -> a <= t <= b -> exists s, nth_error x (time_to_index t x) = Some s /\ s_lb s <= t <= s_ub s /\ (t = s_ub s -> t = b).
  Proof. intros Hne Ht. destruct (idx_spec x a b t Hc Hne Ht) as (s & E & B & B'). eauto. Qed.
  Lemma partial_from_ok root tl tu : x <> [] -> shape (skel root) 0 (doms x) -> fresh ps root -> a <= tl -> tl <= tu -> tu <= b ->
    okz lo (fst (partial_from x root tl tu)) tl tu /\ okz hi (snd (partial_from x root tl tu)) tl tu.
  Proof.
    intros Hne Hs Hf H1 H2 H3.
    destruct (index_spec tl Hne) as (sl & El & Bl & Bl'); [lra|]. destruct (index_spec tu Hne) as (su & Eu & Bu & Bu'); [lra|].
    assert (Ll : (time_to_index tl x < length x)%nat) by (apply nth_error_Some; congruence).
    assert (Lu : (time_to_index tu x < length x)%nat) by (apply nth_error_Some; congruence).
    pose proof (dchain_of x a b Hc) as Hd.
    unfold partial_from. rewrite !(tindex_ok _ root 0 (doms x) a b Hs Hd), !dindex_doms by lra.
    rewrite !(tslice_ok root 0 (doms x)) by (auto; rewrite doms_len; auto). cbn [Nat.add].
    rewrite !(leaf_pp_ok root 0 (doms x)) by (auto; rewrite doms_len; auto). cbn [Nat.add].
    unfold slice_k. rewrite !(nth_error_nth x _ _ El), !(nth_error_nth x _ _ Eu).
    unfold ps. rewrite (prims_ok x a b _ sl Hc Hb El), (prims_ok x a b _ su Hc Hb Eu), !span_not_bad. cbv zeta iota.
    destruct (partA_ok _ sl tl tu El Bl H2) as (A1 & A2).
    assert (Hle : (time_to_index tl x <= time_to_index tu x)%nat) by (apply (idx_ge x a b tu _ sl Hc El); lra).
    destruct (Nat.eqb (time_to_index tl x) (time_to_index tu x)) eqn:Ei.
    - apply Nat.eqb_eq in Ei. rewrite <- Ei in Eu |- *. rewrite El in Eu. injection Eu as <-.
      rewrite (proj2 (Nat.ltb_ge _ _)) by lia. rewrite Rmin_left in A1, A2 by lra. auto.
    - apply Nat.eqb_neq in Ei. assert (Hub : s_ub sl <= s_lb su) by (apply (chain_order x a b (time_to_index tl x) (time_to_index tu x) sl su Hc El Eu); lia).
      rewrite Rmin_right in A1, A2 by lra.
      apply (partC_ok _ su tl tu tl _ Eu Bu); try lra.
      all: destruct (Nat.ltb (S (time_to_index tl x)) (time_to_index tu x)) eqn:En; [apply Nat.ltb_lt in En|apply Nat.ltb_ge in En].
      all: try (replace (s_lb su) with (s_ub sl); auto; apply (chain_from_nth x a b (time_to_index tl x) sl su Hc El);
                replace (S (time_to_index tl x)) with (time_to_index tu x) by lia; auto).
      all: assert (Hlt : s_ub sl < s_lb su)
        by (destruct (nth_error x (S (time_to_index tl x))) as [sm|] eqn:Em; [|apply nth_error_None in Em; lia];
            rewrite (chain_from_nth x a b (time_to_index tl x) sl sm Hc El Em);
            pose proof (chain_order x a b (S (time_to_index tl x)) (time_to_index tu x) sm su Hc Em Eu En);
            destruct (chain_in_bounds x a b sm Hc (nth_error_In _ _ Em)) as (_ & Hm & _); lra).
      all: pose proof (chain_in_bounds x a b sl Hc (nth_error_In _ _ El)) as Gl; pose proof (chain_in_bounds x a b su Hc (nth_error_In _ _ Eu)) as Gu.
      all: rewrite (bnd_lt (s_ub sl) (s_lb su)) by lra; cbn [pair_hull fst snd];
        destruct (prim_bounds_covers root 0 (doms x) a b (s_ub sl) (s_lb su) Hs Hd (placed_all x) Hf) as (P1 & P2); try lra;
        apply okz_hull with (d := s_ub sl); auto; try lra; left; auto.
  Qed.
End Fresh.

(** ** C15 *)
(** [partial_integral(t)] of a tree whose primitives are up to date, in exact arithmetic and for bounded slices: when
    no slice has a bound equal to zero, the primitives of both bounds of the tube are enclosed. *)
Definition nonzero (x : tube) : Prop := forall s, List.In s x -> lo (s_cod s) <> 0 /\ hi (s_cod s) <> 0.
Theorem C15_partial : forall a b x root tl tu t, tube_ok a b x -> bounded x -> nonzero x ->
  shape (skel root) 0 (doms x) -> fresh (prims (pt 0) x) root -> a <= tl -> tl <= t <= tu -> tu <= b ->
  In (area lo x t) (fst (partial_from x root tl tu)) /\ In (area hi x t) (snd (partial_from x root tl tu)).
Proof.
  intros a b x root tl tu t Ok Hb Hn Hs Hf H1 H2 H3.
  destruct (partial_from_ok x a b (ok_chain _ _ _ Ok) Hb root tl tu (ok_ne _ _ _ Ok) Hs Hf) as (A & B); try lra.
  split.
  - destruct A as [A|(_ & _ & s & Hs' & _ & E)]; [apply A; lra|]. destruct (Hn s Hs'). congruence.
  - destruct B as [B|(_ & _ & s & Hs' & _ & E)]; [apply B; lra|]. destruct (Hn s Hs'). congruence.
Qed.
(** Without this condition, each result is an enclosure or the empty set. *)
Theorem C15_or_empty : forall a b x root tl tu, tube_ok a b x -> bounded x ->
  shape (skel root) 0 (doms x) -> fresh (prims (pt 0) x) root -> a <= tl -> tl <= tu -> tu <= b ->
  let p := partial_from x root tl tu in
  (fst p = Emp \/ forall t, tl <= t <= tu -> In (area lo x t) (fst p)) /\
  (snd p = Emp \/ forall t, tl <= t <= tu -> In (area hi x t) (snd p)).
Proof.
  intros a b x root tl tu Ok Hb Hs Hf H1 H2 H3 p.
  destruct (partial_from_ok x a b (ok_chain _ _ _ Ok) Hb root tl tu (ok_ne _ _ _ Ok) Hs Hf) as (A & B); try lra.
  split; [destruct A as [A|(A & _)]|destruct B as [B|(B & _)]]; auto.
Qed.

(** ** C14: invariant of the histories made of writes and integrals *)
Fixpoint allv (t : tree) : Prop :=
  match t with Leaf _ m => m_vals m = true | Node _ m t1 t2 => m_vals m = true /\ allv t1 /\ allv t2 end.
Fixpoint flags_up (t : tree) : Prop :=
  match t with
  | Leaf _ _ => True
  | Node _ m t1 t2 => flags_up t1 /\ flags_up t2 /\ (m_ints (mem t1) = true \/ m_ints (mem t2) = true -> m_ints m = true)
  end.
Definition iinv (x : tube) (t : tree) : Prop :=
  allv t /\ flags_up t /\ (m_ints (mem t) = false -> fresh (prims (pt 0) x) t).

Lemma allv_mem t : allv t -> m_vals (mem t) = true.
Proof. destruct t; cbn; tauto. Qed.
Lemma allv_reqv : forall t i, allv t -> request_values t i = (t, false).
Proof.
  induction t as [k m|n m t1 IH1 t2 IH2]; intros i H; cbn [request_values allv] in *; [rewrite H; auto|]. destruct H as (H0 & H1 & H2).
  destruct (Nat.ltb i (nb t1)); [rewrite IH1 by auto|rewrite IH2 by auto]; cbn [andb]; auto.
Qed.
Lemma reqi1_nb t i : nb (fst (request_ints1 t i)) = nb t.
Proof. rewrite !skel_nb, skel_reqi1. auto. Qed.
Lemma reqi1_keep ps : forall t i, (allv t -> allv (fst (request_ints1 t i))) /\ (fresh ps t -> fresh ps (fst (request_ints1 t i))) /\
  m_pp (mem (fst (request_ints1 t i))) = m_pp (mem t).
Proof.
  induction t as [k m|n m t1 IH1 t2 IH2]; intros i; cbn [request_ints1].
  - destruct (m_ints m); cbn; auto.
  - destruct (Nat.ltb i (nb t1)).
    + specialize (IH1 i). destruct (request_ints1 t1 i) as (t1' & u). cbn [fst] in IH1. destruct IH1 as (A & B & C).
      destruct (u && negb (m_ints m)); cbn; rewrite ?C; intuition.
    + specialize (IH2 (i - nb t1)%nat). destruct (request_ints1 t2 (i - nb t1)) as (t2' & u). cbn [fst] in IH2. destruct IH2 as (A & B & C).
      destruct (u && negb (m_ints m)); cbn; rewrite ?C; intuition.
Qed.
Lemma reqi1_flag : forall t i, flags_up t -> let (t', u) := request_ints1 t i in
  flags_up t' /\ m_ints (mem t') = true /\ (u = false -> m_ints (mem t) = true).
Proof.
  induction t as [k m|n m t1 IH1 t2 IH2]; intros i H; cbn [request_ints1].
  - destruct (m_ints m) eqn:E; cbn; rewrite ?E; intuition discriminate.
  - destruct H as (H1 & H2 & H3). destruct (Nat.ltb i (nb t1)).
    + specialize (IH1 i H1). destruct (request_ints1 t1 i) as (t1' & u). destruct IH1 as (A & B & C).
      destruct (u && negb (m_ints m)) eqn:E; cbn [flags_up mem m_ints set_ints].
      * intuition discriminate.
      * assert (M : m_ints m = true). { destruct u; cbn in E; [destruct (m_ints m); auto; discriminate|]. apply H3. auto. }
        rewrite M. intuition.
    + specialize (IH2 (i - nb t1)%nat H2). destruct (request_ints1 t2 (i - nb t1)) as (t2' & u). destruct IH2 as (A & B & C).
      destruct (u && negb (m_ints m)) eqn:E; cbn [flags_up mem m_ints set_ints].
      * intuition discriminate.
      * assert (M : m_ints m = true). { destruct u; cbn in E; [destruct (m_ints m); auto; discriminate|]. apply H3. auto. }
        rewrite M. intuition.
Qed.
Lemma leaf_ints_up : forall t i, flags_up t -> leaf_ints t i = true -> m_ints (mem t) = true.
Proof.
  induction t as [k m|n m t1 IH1 t2 IH2]; intros i H E; cbn in *; auto. destruct H as (H1 & H2 & H3). apply H3.
  destruct (Nat.ltb i (nb t1)); [left|right]; eauto.
Qed.
Lemma reqi_ok t i : allv t -> flags_up t -> allv (request_ints t i) /\ flags_up (request_ints t i) /\ m_ints (mem (request_ints t i)) = true.
Proof.
  intros Ha Hf. unfold request_ints. destruct (leaf_ints t i) eqn:E; [split; auto; split; auto; eapply leaf_ints_up; eauto|].
  generalize (seq (S i) (nb t - S i)). intros l.
  assert (G : forall l t, allv t -> flags_up t -> m_ints (mem t) = true ->
    let t' := fold_left (fun t j => fst (request_ints1 t j)) l t in allv t' /\ flags_up t' /\ m_ints (mem t') = true).
  { clear. induction l as [|j l IH]; intros t A B C; cbn; auto. apply IH.
    - apply (reqi1_keep [] t j); auto.
    - pose proof (reqi1_flag t j B) as R. destruct (request_ints1 t j). apply R.
    - pose proof (reqi1_flag t j B) as R. destruct (request_ints1 t j). apply R. }
  pose proof (reqi1_flag t i Hf) as R. pose proof (proj1 (reqi1_keep [] t i) Ha) as R'. destruct (request_ints1 t i) as (t' & u). cbn [fst] in *.
  apply G; auto; apply R.
Qed.
Lemma wl_ok ps : forall t, (allv t -> allv (write_leaves ps t)) /\ mem (write_leaves ps t) = match t with Leaf k m => put_ints (nth k ps (ALL, ALL)) m | Node _ m _ _ => m end.
Proof. induction t as [k m|n m t1 (A1 & _) t2 (A2 & _)]; cbn; auto. split; auto. intuition. Qed.
Lemma synth_ok ps : forall t, allv t -> allv (synth_ints (write_leaves ps t)) /\ fresh ps (synth_ints (write_leaves ps t)) /\
  flags_up (synth_ints (write_leaves ps t)) /\ m_ints (mem (synth_ints (write_leaves ps t))) = false.
Proof.
  induction t as [k m|n m t1 IH1 t2 IH2]; intros H; cbn [allv] in H; cbn [write_leaves synth_ints].
  - cbn. auto.
  - destruct H as (H0 & H1 & H2). rewrite H0. destruct (IH1 H1) as (A1 & A2 & A3 & A4). destruct (IH2 H2) as (B1 & B2 & B3 & B4).
    cbn [allv fresh flags_up mem put_ints m_ints m_pp m_vals]. rewrite A4, B4. intuition.
Qed.
Lemma update_ints_iinv x t : allv t -> iinv x (update_ints x t) /\ m_ints (mem (update_ints x t)) = false.
Proof.
  intros H. unfold update_ints. rewrite (allv_mem t H). destruct (synth_ok (prims (pt 0) x) t H) as (A & B & C & D). split; auto. split; auto.
Qed.
Lemma prims_ext : forall x x' sum, doms x' = doms x -> (forall j, cod_at x' j = cod_at x j) -> prims sum x' = prims sum x.
Proof.
  induction x as [|s x IH]; intros [|s' x'] sum Hd Hk; cbn in Hd; try discriminate; auto.
  injection Hd as E1 E2 E3. pose proof (Hk 0%nat) as E4. cbn in E4. injection E4 as E4. cbn [prims]. rewrite E1, E2, E4. f_equal. apply IH; auto.
  intros j. apply (Hk (S j)).
Qed.

Lemma cod_same w x : (match w with WIn _ _ _ | WOut _ _ _ => True | _ => False end) -> forall j, cod_at (write_tube w x) j = cod_at x j.
Proof.
  destruct w; intros H; try contradiction; intros j; cbn [write_tube].
  - unfold set_input_gate. apply put_gate_cod.
  - unfold set_output_gate. apply put_gate_cod.
Qed.
(** only writes and integrals: the caches of values are never refreshed *)
Definition plain (e : event) : bool := match e with Write _ | Query (QIntegral _ _) => true | _ => false end.
Lemma iinv_step st e : plain e = true -> iinv (fst st) (snd st) -> iinv (fst (step st e)) (snd (step st e)).
Proof.
  destruct st as (x & root). intros Hp (Ha & Hf & Hr). cbn [fst snd] in *. destruct e as [w|[]]; try discriminate; cbn [step fst snd].
  - destruct (Nat.ltb (write_index w) (length x)); [|split; auto]. cbn [fst snd].
    destruct w; cbn [write_tree]; rewrite (allv_reqv root) by auto; cbn [fst].
    1,2: destruct (reqi_ok root k Ha Hf) as (A & B & C); split; auto; split; auto; rewrite C; discriminate.
    all: split; auto; split; auto; rewrite (prims_ext x); auto; [apply write_doms|apply cod_same; exact I].
  - unfold q_integral, tpartial. cbn [fst snd]. destruct (m_ints (mem root)) eqn:E; [|split; auto]. apply update_ints_iinv; auto.
Qed.
Lemma build_allv x : forall fuel k n, allv (build fuel k n x) /\ flags_up (build fuel k n x) /\ m_ints (mem (build fuel k n x)) = true.
Proof.
  induction fuel as [|fuel IH]; intros k [|[|n]]; cbn [build].
  all: try (cbn; destruct (nth_error x k); cbn; auto; fail).
  destruct (IH k (Nat.div2 (S (S (S n))))) as (A & B & C). destruct (IH (k + Nat.div2 (S (S (S n))))%nat (S (S n) - Nat.div2 (S (S (S n))))%nat) as (A' & B' & C').
  cbn [allv flags_up mem fresh_memo m_ints m_vals]. intuition.
Qed.
Lemma iinv_history x h : forallb plain h = true -> iinv (fst (history x h)) (snd (history x h)).
Proof.
  intros Hp. unfold history. assert (G : forall l st, forallb plain l = true -> iinv (fst st) (snd st) -> iinv (fst (fold_left step l st)) (snd (fold_left step l st))).
  { induction l as [|e l IH]; intros st Hl Hi; cbn in *; auto. apply andb_prop in Hl. destruct Hl. apply IH, iinv_step; auto. }
  apply G; auto. cbn [fst snd]. destruct (build_allv x (length x) 0 (length x)) as (A & B & C). split; auto. split; auto.
  unfold tree_of. rewrite C. discriminate.
Qed.

(** Tube::integral(t), codac_Tube.cpp 1346-1359, with the tree *)
Definition tree_integral (st : state) (tl tu : R) : itv := from_bounds (fst (q_integral st tl tu)).

Theorem C14_partial : forall a b x0 h f F tl tu t, tube_ok a b x0 -> forallb plain h = true ->
  let st := history x0 h in let x := fst st in
  tube_ok a b x -> bounded x -> nonzero x -> has x f -> follows a b F f -> a <= tl -> tl <= t <= tu -> tu <= b ->
  In (F t - F a) (tree_integral st tl tu).
Proof.
  intros a b x0 h f F tl tu t Ok0 Hp st x Ok Hb Hn Hf HF H1 H2 H3.
  assert (Hi : iinv x (snd st)) by (apply iinv_history; auto).
  destruct (C13_inv a b x0 h Ok0) as (_ & Hc & Hne & _ & Hs & _). fold st in Hs, Hc, Hne. fold x in Hs, Hc, Hne.
  assert (Q : exists root, fst (q_integral st tl tu) = partial_from x root tl tu /\ shape (skel root) 0 (doms x) /\ fresh (prims (pt 0) x) root).
  { unfold q_integral, tpartial. fold x. destruct Hi as (Ha & Hfl & Hr). destruct (m_ints (mem (snd st))) eqn:E; eexists; (split; [reflexivity|]).
    - rewrite skel_update_ints. split; auto. destruct (update_ints_iinv x (snd st) Ha) as ((_ & _ & U) & E'). auto.
    - auto. }
  destruct Q as (root & Eq & Hsh & Hfr). unfold tree_integral. rewrite Eq.
  destruct (C15_partial a b x root tl tu t Ok Hb Hn Hsh Hfr H1 H2 H3) as (A & B).
  destruct (area_bounds f F x a b a t Hc (rises_all f F a b x Hc Hf HF) Hf) as (L1 & L2); try lra.
  { intros s Hs' _. destruct (Hb s Hs') as (l & u & E & _). eauto. }
  rewrite (area_zero lo x a b a Hc) in L1 by lra. rewrite (area_zero hi x a b a Hc) in L2 by lra.
  set (p := partial_from x root tl tu) in *. unfold from_bounds. rewrite (In_not_empty _ _ A), (In_not_empty _ _ B). cbn [orb].
  destruct (is_unbounded (fst p)) eqn:U1; [cbn; tauto|]. destruct (is_unbounded (snd p)) eqn:U2; [cbn; tauto|]. cbn [orb].
  apply hull_pts. pose proof (lo_le_of _ _ U1 A). pose proof (hi_ge_of _ _ U2 B). lra.
Qed.

(** *** Refutations *)
Lemma lin_deriv c b : derivative_on 0 b (fun t => c * t) (fun _ => c).
Proof.
  assert (D : forall t, derivable_pt_lim (fun t => c * t) t c).
  { intros t. pose proof (derivable_pt_lim_scal id c t 1 (derivable_pt_lim_id t)) as D. rewrite Rmult_1_r in D. exact D. }
  split; intros t _; auto. apply derivable_continuous_pt. exists c. apply D.
Qed.
Definition x1 (y : itv) : tube := [mkS 0 1 y y y].
(** integral(); set(); codomain(); integral(): the last call returns the integral of the first tube *)
Theorem C14_refuted : exists a b x0 h f F tl tu t, tube_ok a b x0 /\
  let st := history x0 h in let x := fst st in
  tube_ok a b x /\ bounded x /\ nonzero x /\ has x f /\ derivative_on a b F f /\ a <= tl /\ tl <= t <= tu /\ tu <= b /\
  ~ In (F t - F a) (tree_integral st tl tu).
Proof.
  exists 0, 1, (x1 (I2 1 1)), [Query (QIntegral 0 1); Write (WSet 0 (I2 2 2)); Query QCodomain], (fun _ => 2), (fun t => 2 * t), 0, 1, 1.
  split; [tube_ok_tac|]. cbv zeta. rewrite history_tube.
  assert (E : fold_left tube_step [Query (QIntegral 0 1); Write (WSet 0 (I2 2 2)); Query QCodomain] (x1 (I2 1 1)) = x1 (I2 2 2)).
  { cbn. unfold Nat.ltb; cbn. reval. unfold mk. reval. reflexivity. }
  rewrite E. split; [tube_ok_tac|]. split; [intros s [<-|[]]; exists 2, 2; split; [reflexivity|lra]|].
  split; [intros s [<-|[]]; cbn; lra|]. split; [unfold x1; has_tac|]. split; [apply lin_deriv|]. split; [lra|]. split; [lra|]. split; [lra|].
  pose proof (history_tube (x1 (I2 1 1)) [Query (QIntegral 0 1); Write (WSet 0 (I2 2 2)); Query QCodomain]) as T. rewrite E in T.
  assert (S : snd (history (x1 (I2 1 1)) [Query (QIntegral 0 1); Write (WSet 0 (I2 2 2)); Query QCodomain]) =
     Leaf 0 (mkM 0 1 false true (I2 2 2) (I2 2 2, I2 2 2) (I2 0 1, I2 0 1))).
  { unfold history. cbn [fold_left].
    assert (S1 : step (x1 (I2 1 1), tree_of (x1 (I2 1 1))) (Query (QIntegral 0 1)) =
      (x1 (I2 1 1), Leaf 0 (mkM 0 1 true false ALL (ALL, ALL) (I2 0 1, I2 0 1)))).
    { cbn [step fst snd]. f_equal. unfold q_integral, tpartial. cbn [fst snd]. cbn [tree_of build x1 length nth_error mem fresh_memo s_lb s_ub m_ints].
      unfold update_ints. cbn [mem m_vals fresh_memo write_leaves synth_ints]. unfold put_ints. cbn [m_lb m_ub m_vals m_cod m_cb fresh_memo].
      rewrite (prims_ok (x1 (I2 1 1)) 0 1 0 (mkS 0 1 (I2 1 1) (I2 1 1) (I2 1 1))); [|cbn; lra| |reflexivity].
      - unfold span. cbn. unfold clamp. reval. unfold I2. repeat f_equal; lra.
      - intros s [<-|[]]. exists 1, 1. split; [reflexivity|lra]. }
    rewrite S1. 
    assert (S2 : step (x1 (I2 1 1), Leaf 0 (mkM 0 1 true false ALL (ALL, ALL) (I2 0 1, I2 0 1))) (Write (WSet 0 (I2 2 2))) =
      (x1 (I2 2 2), Leaf 0 (mkM 0 1 true true ALL (ALL, ALL) (I2 0 1, I2 0 1)))).
    { cbn. unfold Nat.ltb; cbn. reval. unfold mk. reval. reflexivity. }
    rewrite S2. cbn. unfold put_vals, leaf_bounds, add_bounds. cbn. reval. reflexivity. }
  replace (history (x1 (I2 1 1)) [Query (QIntegral 0 1); Write (WSet 0 (I2 2 2)); Query QCodomain]) with
    (x1 (I2 2 2), Leaf 0 (mkM 0 1 false true (I2 2 2) (I2 2 2, I2 2 2) (I2 0 1, I2 0 1))) by (rewrite <- S, <- T; destruct (history _ _); auto).
  unfold tree_integral, q_integral, tpartial, partial_from, update_ints, from_bounds, partA, s_dom, bnd, mk. cbn. reval.
  unfold Nat.ltb. cbn. reval. lra.
Qed.
(** a slice [0,1], integral at 1/2: no term is computed for the lower bound, equal to zero *)
Theorem C15_refuted : exists a b x f F tl tu t, tube_ok a b x /\ bounded x /\ has x f /\ derivative_on a b F f /\
  a <= tl /\ tl <= t <= tu /\ tu <= b /\ ~ In (F t - F a) (tree_integral (history x []) tl tu).
Proof.
  exists 0, 1, (x1 (I2 0 1)), (fun _ => 1), (fun t => 1 * t), (1/2), (1/2), (1/2). split; [tube_ok_tac|].
  split; [intros s [<-|[]]; exists 0, 1; split; [reflexivity|lra]|]. split; [unfold x1; has_tac|]. split; [apply lin_deriv|].
  split; [lra|]. split; [lra|]. split; [lra|].
  assert (E : fst (partial_from (x1 (I2 0 1)) (update_ints (x1 (I2 0 1)) (tree_of (x1 (I2 0 1)))) (1/2) (1/2)) = Emp).
  { unfold partial_from. cbn [tree_of build x1 length nth_error s_lb s_ub update_ints mem fresh_memo m_vals write_leaves synth_ints].
    change (prims (pt 0) [mkS 0 1 (I2 0 1) (I2 0 1) (I2 0 1)]) with (prims (pt 0) (x1 (I2 0 1))).
    rewrite (prims_ok (x1 (I2 0 1)) 0 1 0 (mkS 0 1 (I2 0 1) (I2 0 1) (I2 0 1))); [|cbn; lra| |reflexivity].
    - unfold partA, by_sign, s_dom, bnd, mk, span. cbn -[area]. reval. unfold Nat.ltb. cbn. reflexivity.
    - intros s [<-|[]]. exists 0, 1. split; [reflexivity|lra]. }
  unfold tree_integral, from_bounds, history, q_integral, tpartial. cbn [fold_left fst snd].
  change (m_ints (mem (tree_of (x1 (I2 0 1))))) with true. cbv iota. rewrite E. cbn. auto.
Qed.

(** *** Concrete cases *)
Definition tN : tube := [mkS 0 1 (I2 1 2) (I2 1 2) (I2 1 2); mkS 1 2 (I2 1 3) (I2 1 2) (I2 1 3); mkS 2 3 (I2 (-1) 3) (I2 1 3) (I2 (-1) 3)].
Lemma tN_ok : tube_ok 0 3 tN. Proof. tube_ok_tac. Qed.
Definition hN : list event := [Query (QIntegral 0 3); Write (WSet 1 (I2 1 2)); Query (QIntegral 1 (3/2)); Write (WIn 1 (I2 1 2) true)].
Lemma hN_tube : fst (history tN hN) =
  [mkS 0 1 (I2 1 2) (I2 1 2) (I2 1 2); mkS 1 2 (I2 1 2) (I2 1 2) (I2 1 2); mkS 2 3 (I2 (-1) 3) (I2 1 2) (I2 (-1) 3)].
Proof. rewrite history_tube. cbn. unfold Nat.ltb; cbn. reval. unfold mk. reval. unfold I2. reflexivity. Qed.
Example C14_case : In (3/2 * (5/2) - 3/2 * 0) (tree_integral (history tN hN) (1/2) (5/2)).
Proof.
  apply (C14_partial 0 3 tN hN (fun _ => 3/2) (fun t => 3/2 * t)); try lra; rewrite ?hN_tube; try reflexivity; try tube_ok_tac; try has_tac.
  - intros s [<-|[<-|[<-|[]]]]; eexists _, _; (split; [reflexivity|lra]).
  - intros s [<-|[<-|[<-|[]]]]; cbn; lra.
  - apply follows_derivative, lin_deriv.
Qed.
Example C15_case : In (area lo tN (5/2)) (fst (partial_from tN (update_ints tN (tree_of tN)) (1/2) (5/2))).
Proof.
  apply (C15_partial 0 3 tN); try lra.
  - apply tN_ok.
  - intros s [<-|[<-|[<-|[]]]]; eexists _, _; (split; [reflexivity|lra]).
  - intros s [<-|[<-|[<-|[]]]]; cbn; lra.
  - rewrite skel_update_ints. apply tree_of_shape. discriminate.
  - destruct (build_allv tN 3 0 3) as (A & _). destruct (update_ints_iinv tN (tree_of tN) A) as ((_ & _ & U) & E). auto.
Qed.
Print Assumptions C14_partial.
Print Assumptions C14_refuted.
Print Assumptions C15_partial.
Print Assumptions C15_or_empty.
Print Assumptions C15_refuted.
