(** * C55: thick intervals and thick boxes *)

From Coq Require Import Reals Lra Lia Bool List.
Import ListNotations.
From Verif Require Import Itv Static PropsStatic Paving PropsSivia Concrete Thick PropsThickBool.
Open Scope R_scope.

(** ** Specification *)
(** The intervals [x,y] a thick interval stands for. *)
Definition sel (a : titv) (x y : R) : Prop := In x (tlb a) /\ In y (tub a) /\ x <= y.
(** The boxes a thick box stands for; a pair is the two bounds of a component. *)
Definition selb (a : tbox) (s : list (R * R)) : Prop := Forall2 (fun t p => sel t (fst p) (snd p)) a s.
Definition boxof (s : list (R * R)) : box := map (fun p => bnd (fst p) (snd p)) s.
Definition meets (i j : itv) : Prop := exists w, In w i /\ In w j.
Definition bsub (a b : box) : Prop := forall p, inb p a -> inb p b.
Definition bmeets (a b : box) : Prop := exists p, inb p a /\ inb p b.
(** [y] contains [x] in its interior, [y] being bounded by [u] and [v] *)
Definition inner (x y u v : R) : Prop := u < x /\ y < v.
(** The status of one interval with regard to [y]: inside, outside or across. *)
Definition istat (i y : itv) (s : stat) : Prop :=
  match s with sIn => sub i y | sOut => ~ meets i y | sPen => meets i y /\ ~ sub i y end.
Definition bstat (i y : box) (s : stat) : Prop :=
  match s with sIn => bsub i y | sOut => ~ bmeets i y | sPen => bmeets i y /\ ~ bsub i y end.

(** ** Proofs *)
Lemma ub_le i j : ub_sub_le0 i j = true -> forall x y, In x i -> In y j -> x <= y.
Proof.
  destruct i as [|l [u|]]; try discriminate; destruct j as [|[l'|] h]; try discriminate. cbn.
  intros H x y [_ A] [B _]. apply Rleb_true in H. cbn in *. lra.
Qed.
Lemma ub_le_true i j : (exists x, In x i) -> (exists y, In y j) -> wf i -> wf j ->
  is_unbounded i = false -> is_unbounded j = false -> (forall x y, In x i -> In y j -> x <= y) -> ub_sub_le0 i j = true.
Proof.
  intros [x Hx] [y Hy] Wi Wj Ui Uj H. destruct i as [|[l|] [u|]]; cbn in *; try contradiction; try discriminate.
  destruct j as [|[l'|] [u'|]]; cbn in *; try contradiction; try discriminate. apply Rleb_true. specialize (H u l'). lra.
Qed.
Lemma new_sel l u x y : wf l -> wf u -> In x l -> In y u -> x <= y -> (forall a, In a u -> exists b, In b l /\ b <= a) ->
  (forall b, In b l -> exists a, In a u /\ b <= a) -> sel (t_new l u) x y.
Proof.
  intros Wl Wu Hx Hy Hxy A B. destruct l as [|l1 h1]; [contradiction|]. destruct u as [|l2 h2]; [contradiction|].
  unfold t_new.
  assert (E1 : hi_gtb h1 h2 = false).
  { destruct h1 as [h1|], h2 as [h2|]; cbn in *; auto.
    - apply Rltb_false. destruct (B h1) as (a & Ha & La); [destruct l1; cbn in *; tauto || lra|]. cbn in Ha. lra.
    - exfalso. destruct (B (Rmax x (h2 + 1))) as (a & Ha & La).
      + split; auto. destruct l1; cbn in *; auto. pose proof (Rmax_l x (h2 + 1)). lra.
      + pose proof (Rmax_r x (h2 + 1)). cbn in Ha. lra. }
  assert (E2 : lo_ltb l2 l1 = false).
  { destruct l1 as [l1|], l2 as [l2|]; cbn in *; auto.
    - apply Rltb_false. destruct (A l2) as (a & Ha & La); [destruct h2; cbn in *; tauto || lra|]. cbn in Ha. lra.
    - exfalso. destruct (A (Rmin y (l1 - 1))) as (a & Ha & La).
      + split; auto. destruct h2; cbn in *; auto. pose proof (Rmin_l y (l1 - 1)). lra.
      + pose proof (Rmin_r y (l1 - 1)). cbn in Ha. lra. }
  rewrite E1, E2. cbn [orb]. split; auto.
Qed.
Lemma of_bnd l h : l <= h -> sel (t_of (bnd l h)) l h.
Proof.
  intros H. unfold bnd, mk. destruct (Rle_dec l h); [|contradiction]. unfold t_of, t_new. cbn.
  assert (E : Rltb h l = false) by (apply Rltb_false; lra). unfold sel. rewrite !E. cbn. lra.
Qed.
(** the thick interval of a bounded interval selects only its two bounds *)
Lemma of_only l h u v : sel (t_of (bnd l h)) u v -> u = l /\ v = h /\ l <= h.
Proof.
  unfold bnd, mk. destruct (Rle_dec l h); [|cbn; intros [[] _]]. unfold t_of, t_new, lb_pt, ub_pt, pt.
  destruct (_ || _); cbn; [intros [[] _]|]. intros (A & B & _). cbn in *. lra.
Qed.
Lemma of_case y : (exists l h, y = Itv (Some l) (Some h) /\ t_of y = mkT (pt l) (pt h) /\ l <= h) \/ t_of y = mkT Emp Emp.
Proof.
  unfold t_of, t_new, lb_pt, ub_pt. destruct y as [|[l|] [h|]]; auto. cbn.
  destruct (Rltb h l) eqn:E; auto. left. exists l, h. cbn. rewrite ?E. apply Rltb_false in E. repeat split; auto; lra.
Qed.

(** *** Comparisons of thick intervals *)
Theorem C55_subset : forall a b, t_is_subset a b = true ->
  forall x y u v, sel a x y -> sel b u v -> sub (bnd x y) (bnd u v).
Proof.
  intros a b H x y u v (A & B & _) (C & D & _). apply andb_true_iff in H as [H K].
  pose proof (ub_le _ _ H _ _ C A). pose proof (ub_le _ _ K _ _ B D). intros w Hw. apply In_bnd in Hw. apply In_bnd. lra.
Qed.
Theorem C55_intersects : forall a b, t_intersects a b = true ->
  forall x y u v, sel a x y -> sel b u v -> meets (bnd x y) (bnd u v).
Proof.
  intros a b H x y u v (A & B & L) (C & D & M). apply andb_true_iff in H as [H K].
  pose proof (ub_le _ _ H _ _ C B). pose proof (ub_le _ _ K _ _ A D).
  exists (Rmax x u). split; apply In_bnd; unfold Rmax; destruct (Rle_dec x u); lra.
Qed.
(** and the two tests miss no case, for bounded bounds that can all be reached *)
Definition full (a : titv) : Prop :=
  wf (tlb a) /\ wf (tub a) /\ is_unbounded (tlb a) = false /\ is_unbounded (tub a) = false /\
  (forall x, In x (tlb a) -> exists y, sel a x y) /\ (forall y, In y (tub a) -> exists x, sel a x y) /\ exists x y, sel a x y.
Theorem C55_subset_complete : forall a b, full a -> full b ->
  (forall x y u v, sel a x y -> sel b u v -> sub (bnd x y) (bnd u v)) -> t_is_subset a b = true.
Proof.
  intros a b (Wa & Wa' & Ua & Ua' & Fa & Fa' & (x0 & y0 & S0)) (Wb & Wb' & Ub & Ub' & Fb & Fb' & (u0 & v0 & T0)) H.
  apply andb_true_iff. split; apply ub_le_true; auto; try (eexists; apply T0); try (eexists; apply S0).
  - intros u x Hu Hx. destruct (Fb _ Hu) as [v Hv]. destruct (Fa _ Hx) as [y Hy].
    assert (In x (bnd u v)) as K by (apply (H _ _ _ _ Hy Hv); apply In_bnd; destruct Hy as (_ & _ & L); lra). apply In_bnd in K. lra.
  - intros y v Hy Hv. destruct (Fa' _ Hy) as [x Hx]. destruct (Fb' _ Hv) as [u Hu].
    assert (In y (bnd u v)) as K by (apply (H _ _ _ _ Hx Hu); apply In_bnd; destruct Hx as (_ & _ & L); lra). apply In_bnd in K. lra.
Qed.
Theorem C55_intersects_complete : forall a b, full a -> full b ->
  (forall x y u v, sel a x y -> sel b u v -> meets (bnd x y) (bnd u v)) -> t_intersects a b = true.
Proof.
  intros a b (Wa & Wa' & Ua & Ua' & Fa & Fa' & (x0 & y0 & S0)) (Wb & Wb' & Ub & Ub' & Fb & Fb' & (u0 & v0 & T0)) H.
  apply andb_true_iff. split; apply ub_le_true; auto; try (eexists; apply T0); try (eexists; apply S0).
  - intros u y Hu Hy. destruct (Fb _ Hu) as [v Hv]. destruct (Fa' _ Hy) as [x Hx].
    destruct (H _ _ _ _ Hx Hv) as (w & P & Q). apply In_bnd in P. apply In_bnd in Q. lra.
  - intros x v Hx Hv. destruct (Fa _ Hx) as [y Hy]. destruct (Fb' _ Hv) as [u Hu].
    destruct (H _ _ _ _ Hy Hu) as (w & P & Q). apply In_bnd in P. apply In_bnd in Q. lra.
Qed.

(** [is_disjoint] is documented as "no common point"; it answers yes only for two equal points. *)
Theorem C55_disjoint_only : forall a b, t_is_disjoint a b = true ->
  forall x y u v, sel a x y -> sel b u v -> x = y /\ u = v /\ x = u.
Proof.
  intros a b H x y u v (A & B & L) (C & D & M). apply andb_true_iff in H as [H K].
  pose proof (ub_le _ _ H _ _ B C). pose proof (ub_le _ _ K _ _ D A). lra.
Qed.
Theorem C55_disjoint_refuted : exists a b x y u v, t_is_disjoint a b = true /\ sel a x y /\ sel b u v /\ meets (bnd x y) (bnd u v).
Proof.
  exists (t_of (bnd 1 1)), (t_of (bnd 1 1)), 1, 1, 1, 1.
  refine (conj _ (conj (of_bnd 1 1 ltac:(lra)) (conj (of_bnd 1 1 ltac:(lra)) _))).
  - unfold t_is_disjoint, t_of, bnd. cbn. unfold mk. reval; try (exfalso; lra); reflexivity.
  - exists 1. split; apply In_bnd; lra.
Qed.
(** and two intervals apart are not found disjoint *)
Theorem C55_disjoint_missed_refuted : exists a b, t_is_disjoint a b = false /\ (exists x y u v, sel a x y /\ sel b u v) /\
  forall x y u v, sel a x y -> sel b u v -> ~ meets (bnd x y) (bnd u v).
Proof.
  exists (t_of (bnd 0 1)), (t_of (bnd 2 3)). refine (conj _ (conj _ _)).
  - destruct (t_is_disjoint _ _) eqn:E; auto. exfalso.
    destruct (C55_disjoint_only _ _ E 0 1 2 3) as (A & _); [apply of_bnd; lra|apply of_bnd; lra|lra].
  - exists 0, 1, 2, 3. split; apply of_bnd; lra.
  - intros x y u v A B (w & P & Q). apply of_only in A as (-> & -> & _). apply of_only in B as (-> & -> & _).
    apply In_bnd in P. apply In_bnd in Q. lra.
Qed.
(** [is_not_subset] answers yes for an interval included in another one with the same bound. *)
Theorem C55_not_subset_partial : forall a b, t_is_not_subset a b = true ->
  forall x y u v, sel a x y -> sel b u v -> ~ inner x y u v.
Proof.
  intros a b H x y u v (A & B & L) (C & D & M) (P & Q). apply orb_true_iff in H as [H|H].
  - pose proof (ub_le _ _ H _ _ A C). lra.
  - pose proof (ub_le _ _ H _ _ D B). lra.
Qed.
Theorem C55_not_subset_refuted : exists a b x y u v, t_is_not_subset a b = true /\ sel a x y /\ sel b u v /\ sub (bnd x y) (bnd u v).
Proof.
  exists (t_of (bnd 0 1)), (t_of (bnd 0 2)), 0, 1, 0, 2.
  refine (conj _ (conj (of_bnd 0 1 ltac:(lra)) (conj (of_bnd 0 2 ltac:(lra)) _))).
  - unfold t_is_not_subset, t_of, bnd. cbn. unfold mk. reval; try (exfalso; lra); cbn; reval; reflexivity.
  - intros w Hw. apply In_bnd in Hw. apply In_bnd. lra.
Qed.

(** *** Superset, subset, intersection *)
Lemma super_in a x y t : sel a x y -> x <= t <= y -> In t (t_superset a).
Proof.
  intros (A & B & _) H. unfold t_superset. destruct (tlb a) as [|l h]; [contradiction|]. destruct (tub a) as [|l' h']; [contradiction|].
  apply In_mk. destruct A as [A _], B as [_ B]. destruct l, h'; cbn in *; split; auto; lra.
Qed.
(** the superset encloses every selected interval, the subset is in every selected interval *)
Theorem C55_superset : forall a x y, sel a x y -> sub (bnd x y) (t_superset a).
Proof. intros a x y H t Ht. apply In_bnd in Ht. eapply super_in; eauto. Qed.
Theorem C55_subset_of : forall a x y, sel a x y -> sub (t_subset a) (bnd x y).
Proof.
  intros a x y (A & B & _) t. unfold t_subset. destruct (tlb a) as [|l [h|]], (tub a) as [|[l'|] h']; cbn; try contradiction.
  destruct (Rltb h l') eqn:E; [|contradiction]. intros Ht. apply In_bnd in Ht. apply In_bnd. cbn in *. lra.
Qed.

Lemma max_in i j x u : In x i -> In u j -> In (Rmax x u) (i_max i j).
Proof.
  destruct i as [|l h], j as [|l' h']; cbn; try contradiction. intros [A B] [C D].
  split; [destruct l, l'; cbn in *|destruct h, h'; cbn in *]; auto; unfold Rmax; repeat destruct (Rle_dec _ _); lra.
Qed.
Lemma min_in i j x u : In x i -> In u j -> In (Rmin x u) (i_min i j).
Proof.
  destruct i as [|l h], j as [|l' h']; cbn; try contradiction. intros [A B] [C D].
  split; [destruct l, l'; cbn in *|destruct h, h'; cbn in *]; auto; unfold Rmin; repeat destruct (Rle_dec _ _); lra.
Qed.
(** the upper bounds of one of the two operands are all under 1e10 *)
Definition capped (a b : titv) : Prop := sub (tub a) (Itv None (Some T_BIG)) \/ sub (tub b) (Itv None (Some T_BIG)).
Lemma wf_i_max i j : wf i -> wf j -> wf (i_max i j).
Proof. destruct i as [|[l|] [h|]], j as [|[l'|] [h'|]]; cbn; auto; intros; unfold Rmax; repeat destruct (Rle_dec _ _); lra. Qed.
Lemma wf_i_min i j : wf i -> wf j -> wf (i_min i j).
Proof. destruct i as [|[l|] [h|]], j as [|[l'|] [h'|]]; cbn; auto; intros; unfold Rmin; repeat destruct (Rle_dec _ _); lra. Qed.

Theorem C55_inter_partial : forall a b x y u v, wf (tlb a) -> wf (tub a) -> wf (tlb b) -> wf (tub b) -> capped a b ->
  sel a x y -> sel b u v -> Rmax x u <= Rmin y v -> sel (t_inter a b) (Rmax x u) (Rmin y v).
Proof.
  intros a b x y u v W1 W2 W3 W4 Cap A B H. unfold t_inter.
  assert (E : is_empty (inter (t_superset a) (t_superset b)) = false).
  { assert (K : In (Rmax x u) (inter (t_superset a) (t_superset b))).
    { apply In_inter. split; [apply (super_in a x y)|apply (super_in b u v)]; auto;
      unfold Rmax, Rmin in *; repeat destruct (Rle_dec _ _); lra. }
    destruct (inter (t_superset a) (t_superset b)); [contradiction|reflexivity]. }
  rewrite E. cbn [negb]. destruct A as (Ax & Ay & Al), B as (Bx & By & Bl).
  pose proof (max_in _ _ _ _ Ax Bx) as M. pose proof (min_in _ _ _ _ Ay By) as N.
  assert (WM : wf (i_max (tlb a) (tlb b))) by (apply wf_i_max; auto).
  assert (WN : wf (i_min (tub a) (tub b))) by (apply wf_i_min; auto).
  assert (Hc : forall z, In z (i_min (tub a) (tub b)) -> z <= T_BIG).
  { intros z Hz. destruct Cap as [C|C].
    - destruct (tub a) as [|l1 [h1|]], (tub b) as [|l2 [h2|]]; cbn in Hz; try contradiction.
      + assert (h1 <= T_BIG) by (apply (C h1); split; [destruct l1; cbn in *; lra || auto|cbn; lra]). destruct Hz as [_ Hz]. pose proof (Rmin_l h1 h2). lra.
      + assert (h1 <= T_BIG) by (apply (C h1); split; [destruct l1; cbn in *; lra || auto|cbn; lra]). lra.
      + exfalso. assert (K : In (Rmax y (T_BIG + 1)) (Itv l1 None)) by (destruct Ay as [Ay _]; split; [destruct l1; cbn in *; auto; pose proof (Rmax_l y (T_BIG + 1)); lra|exact I]).
        apply C in K. destruct K as [_ K]. cbn in K. pose proof (Rmax_r y (T_BIG + 1)). lra.
      + exfalso. assert (K : In (Rmax y (T_BIG + 1)) (Itv l1 None)) by (destruct Ay as [Ay _]; split; [destruct l1; cbn in *; auto; pose proof (Rmax_l y (T_BIG + 1)); lra|exact I]).
        apply C in K. destruct K as [_ K]. cbn in K. pose proof (Rmax_r y (T_BIG + 1)). lra.
    - destruct (tub a) as [|l1 [h1|]], (tub b) as [|l2 [h2|]]; cbn in Hz; try contradiction.
      + assert (h2 <= T_BIG) by (apply (C h2); split; [destruct l2; cbn in *; lra || auto|cbn; lra]). destruct Hz as [_ Hz]. pose proof (Rmin_r h1 h2). lra.
      + exfalso. assert (K : In (Rmax v (T_BIG + 1)) (Itv l2 None)) by (destruct By as [By _]; split; [destruct l2; cbn in *; auto; pose proof (Rmax_l v (T_BIG + 1)); lra|exact I]).
        apply C in K. destruct K as [_ K]. cbn in K. pose proof (Rmax_r v (T_BIG + 1)). lra.
      + assert (h2 <= T_BIG) by (apply (C h2); split; [destruct l2; cbn in *; lra || auto|cbn; lra]). lra.
      + exfalso. assert (K : In (Rmax v (T_BIG + 1)) (Itv l2 None)) by (destruct By as [By _]; split; [destruct l2; cbn in *; auto; pose proof (Rmax_l v (T_BIG + 1)); lra|exact I]).
        apply C in K. destruct K as [_ K]. cbn in K. pose proof (Rmax_r v (T_BIG + 1)). lra. }
  set (M0 := i_max (tlb a) (tlb b)) in *. set (N0 := i_min (tub a) (tub b)) in *. cbv zeta.
  pose proof (Hc _ N) as HN.
  destruct M0 as [|ml mh] eqn:EM; [contradiction|]. destruct N0 as [|nl nh] eqn:EN; [contradiction|].
  apply new_sel; try apply wf_inter; auto.
  - apply In_inter. split; auto. split; [exact I|]. destruct N as [_ N]. destruct nh; cbn in *; auto; lra.
  - apply In_inter. split; auto. apply In_mk. split; [|cbn; auto]. destruct M as [M _]. destruct ml; cbn in *; auto; lra.
  - intros z Hz. apply In_inter in Hz as [Hz Hz']. apply In_mk in Hz' as [K _].
    exists (Rmin (Rmax x u) z). split; [|apply Rmin_r]. apply In_inter. split.
    + apply (In_convex (Rmin (Rmax x u) z) (Rmin (Rmax x u) z) (Rmax x u)); auto; [|split; [lra|apply Rmin_l]].
      destruct M as [M M']. split; [destruct ml; cbn in *; auto; unfold Rmin; destruct (Rle_dec _ _); lra|].
      destruct mh; cbn in *; auto. pose proof (Rmin_l (Rmax x u) z). lra.
    + split; [exact I|]. destruct Hz as [_ Hz]. destruct nh; cbn in *; auto. pose proof (Rmin_r (Rmax x u) z). lra.
  - intros z Hz. apply In_inter in Hz as [Hz [_ Hz']].
    exists (Rmax z (Rmin y v)). split; [|apply Rmax_l].
    assert (K : In (Rmax z (Rmin y v)) (Itv nl nh)).
    { destruct N as [N N']. split; [destruct nl; cbn in *; auto; pose proof (Rmax_r z (Rmin y v)); lra|].
      destruct nh; cbn in *; auto. unfold Rmax; destruct (Rle_dec _ _); lra. }
    apply In_inter. split; auto. apply In_mk. split; [|cbn; apply Hc; auto].
    destruct Hz as [Hz _]. destruct ml; cbn in *; auto. pose proof (Rmax_l z (Rmin y v)). lra.
Qed.
(** Beyond 1e10 the intersection of an interval with itself is empty. *)
Theorem C55_inter_refuted : exists a x y, sel a x y /\ forall u v, ~ sel (t_inter a a) u v.
Proof.
  exists (t_of (bnd 0 20000000000)), 0, 20000000000. split; [apply of_bnd; lra|]. intros u v.
  unfold t_inter, t_superset, t_of, bnd, mk, T_BIG. intros K. revert K.
  destruct (Rle_dec 0 20000000000); [|lra]. cbn. unfold t_new, hi_gtb, lo_ltb, pt, mk. cbn.
  rewrite (proj2 (Rltb_false 20000000000 0)) by lra. cbn.
  destruct (Rle_dec 0 20000000000); [|lra]. cbn.
  rewrite (Rmax_left 0 0), (Rmin_left 20000000000 20000000000) by lra.
  destruct (Rle_dec 0 20000000000); [|lra]. cbn.
  rewrite ?(Rmax_left 0 0), ?(Rmin_left 20000000000 20000000000) by lra. unfold T_BIG.
  destruct (Rle_dec 0 20000000000); [|lra]. destruct (Rle_dec 0 10000000000); [|lra]. cbn.
  rewrite ?(Rmax_left 20000000000 0) by lra. rewrite ?(Rmin_right 20000000000 10000000000) by lra.
  unfold mk. destruct (Rle_dec 20000000000 10000000000); [lra|].
  repeat match goal with |- context [if ?c then _ else _] => destruct c end; intros [[] _].
Qed.

(** *** is_inside *)
Lemma sub_istat i y : sub i y -> (exists w, In w i) -> istat i y sIn /\ (forall s, istat i y s -> s = sIn).
Proof.
  intros H (w & Hw). split; auto. intros []; cbn; auto; intros K; exfalso.
  - apply K. exists w. split; auto.
  - destruct K as [_ K]. auto.
Qed.
(** IN, OUT, [?,1] and [0,1] enclose the status of every selected interval. *)
Theorem C55_inside_partial : forall a y x z s, wf y -> (forall l h, y = Itv (Some l) (Some h) -> ~ (x = l \/ z = h)) ->
  sel a x z -> istat (bnd x z) y s -> sem (t_is_inside a y) s.
Proof.
  intros a y x z s Wy Hb Hs H. pose proof (C55_superset _ _ _ Hs) as Sup. assert (Lx : x <= z) by apply Hs.
  assert (Wx : In x (bnd x z)) by (apply In_bnd; lra).
  unfold t_is_inside. destruct (is_subset (t_superset a) y) eqn:E1.
  { apply is_subset_sub in E1. assert (sub (bnd x z) y) as K by (intros w Hw; auto).
    destruct s; cbn in *; auto; exfalso; [apply H; exists x; split; auto|destruct H; auto]. }
  unfold intersects. rewrite negb_involutive. destruct (is_empty (inter (t_superset a) y)) eqn:E2.
  { assert (~ meets (bnd x z) y) as K. { intros (w & P & Q). apply Sup in P. assert (In w (inter (t_superset a) y)) as T by (apply In_inter; auto).
      destruct (inter (t_superset a) y); [contradiction|discriminate]. }
    destruct s; cbn in *; auto; exfalso; [apply K, H|]. apply K. exists x. split; auto. }
  destruct (of_case y) as [(l & h & -> & Et & Lh)|Et]; rewrite Et.
  - specialize (Hb l h eq_refl).
    assert (St : sel (mkT (pt l) (pt h)) l h) by (repeat split; cbn; lra).
    destruct (t_intersects a (mkT (pt l) (pt h))) eqn:B1; destruct (t_is_not_subset a (mkT (pt l) (pt h))) eqn:B2; cbn [andb negb].
    + destruct s; cbn; auto; exfalso; cbn in H.
      * apply H. destruct (C55_intersects _ _ B1 _ _ _ _ Hs St) as (w & P & Q). exists w. split; auto. apply In_bnd in Q. cbn. lra.
      * apply (C55_not_subset_partial _ _ B2 _ _ _ _ Hs St). pose proof (H _ Wx) as K. assert (In z (bnd x z)) as T by (apply In_bnd; lra). apply H in T.
        cbn in K, T. unfold inner. split; [destruct (Req_dec x l); [tauto|lra]|destruct (Req_dec z h); [tauto|lra]].
    + destruct s; cbn; auto; exfalso; cbn in H.
      apply H. destruct (C55_intersects _ _ B1 _ _ _ _ Hs St) as (w & P & Q). exists w. split; auto. apply In_bnd in Q. cbn. lra.
    + destruct s; cbn; auto; exfalso; cbn in H.
      apply (C55_not_subset_partial _ _ B2 _ _ _ _ Hs St). pose proof (H _ Wx) as K. assert (In z (bnd x z)) as T by (apply In_bnd; lra). apply H in T.
      cbn in K, T. unfold inner. split; [destruct (Req_dec x l); [tauto|lra]|destruct (Req_dec z h); [tauto|lra]].
    + exact I.
  - unfold t_intersects, t_is_not_subset, ub_sub_le0. cbn. destruct (tub a) as [|? [?|]], (tlb a) as [|? [?|]]; exact I.
Qed.
(** Without the condition on the bounds only the answers IN, OUT, [?,1] and [0,1] can be trusted. *)
Theorem C55_inside_sure : forall a y x z s, wf y -> sel a x z -> istat (bnd x z) y s ->
  t_is_inside a y <> TMaybe -> t_is_inside a y <> TMaybeOut -> sem (t_is_inside a y) s.
Proof.
  intros a y x z s Wy Hs H N1 N2. pose proof (C55_superset _ _ _ Hs) as Sup. assert (Lx : x <= z) by apply Hs.
  assert (Wx : In x (bnd x z)) by (apply In_bnd; lra). revert N1 N2.
  unfold t_is_inside. destruct (is_subset (t_superset a) y) eqn:E1.
  { apply is_subset_sub in E1. assert (sub (bnd x z) y) as K by (intros w Hw; auto).
    destruct s; cbn in *; auto; exfalso; [apply H; exists x; split; auto|destruct H; auto]. }
  unfold intersects. rewrite negb_involutive. destruct (is_empty (inter (t_superset a) y)) eqn:E2.
  { assert (~ meets (bnd x z) y) as K. { intros (w & P & Q). apply Sup in P. assert (In w (inter (t_superset a) y)) as T by (apply In_inter; auto).
      destruct (inter (t_superset a) y); [contradiction|discriminate]. }
    destruct s; cbn in *; auto; exfalso; [apply K, H|]. apply K. exists x. split; auto. }
  destruct (of_case y) as [(l & h & -> & Et & Lh)|Et]; rewrite Et.
  - assert (St : sel (mkT (pt l) (pt h)) l h) by (repeat split; cbn; lra).
    destruct (t_intersects a (mkT (pt l) (pt h))) eqn:B1; destruct (t_is_not_subset a (mkT (pt l) (pt h))) eqn:B2; cbn [andb negb]; intros N1 N2; try congruence.
    + destruct s; cbn; auto; exfalso; cbn in H.
      apply H. destruct (C55_intersects _ _ B1 _ _ _ _ Hs St) as (w & P & Q). exists w. split; auto. apply In_bnd in Q. cbn. lra.
    + exact I.
  - unfold t_intersects, t_is_not_subset, ub_sub_le0. cbn. destruct (tub a) as [|? [?|]], (tlb a) as [|? [?|]]; intros; exact I.
Qed.
(** [[0,1],[2,2]] has the selection [1,2], which is in [1,3]; the answer is [?]. *)
Theorem C55_inside_refuted : exists a y x z, sel a x z /\ istat (bnd x z) y sIn /\ ~ sem (t_is_inside a y) sIn.
Proof.
  exists (t_new (bnd 0 1) (bnd 2 2)), (bnd 1 3), 1, 2. refine (conj _ (conj _ _)).
  - unfold bnd, mk, t_new. reval; try (exfalso; lra); cbn; reval; try (exfalso; lra). unfold sel; cbn. lra.
  - cbn. intros w Hw. apply In_bnd in Hw. apply In_bnd. lra.
  - unfold t_is_inside, t_superset, t_of, t_intersects, t_is_not_subset, bnd, mk, t_new, intersects, inter, hi_gtb, lo_ltb, max_lo, min_hi, is_subset.
    reval; try (exfalso; lra); unfold Rmax, Rmin, mk; reval; try (exfalso; lra); try discriminate; intuition discriminate.
Qed.
