(** * C53, C73: pavings of codac2 *)

From Coq Require Import Reals Lra Lia Bool List Arith.
Import ListNotations.
From Verif Require Import Itv Static PropsStatic Sivia PropsSivia Concrete Codac2Box PropsBox2.
Open Scope R_scope.

(** ** Specification *)
(** [b] is the box of a node without child *)
Inductive leaf_of (b : box) : pnode -> Prop :=
| lf_leaf : leaf_of b (PLeaf b)
| lf_left x l : leaf_of b l -> leaf_of b (PLeft x l)
| lf_right x r : leaf_of b r -> leaf_of b (PRight x r)
| lf_both_l x l r : leaf_of b l -> leaf_of b (PBoth x l r)
| lf_both_r x l r : leaf_of b r -> leaf_of b (PBoth x l r).
(** all the leaves are boxes of dimension [n] *)
Definition dim (n : nat) (t : pnode) : Prop := forall b, leaf_of b t -> length b = n /\ Forall wf b.
Definition some_point (b : box) : Prop := exists p, inb p b.
Definition meet (b f : box) : Prop := exists p, inb p b /\ inb p f.
Definition whole (n : nat) : box := repeat ALL n.

(** ** Proofs *)
Lemma point_iff b : Forall wf b -> (some_point b <-> m_is_empty b = false).
Proof.
  intros W. split; [intros [p Hp]; eapply empty_false; eauto|apply witness; auto].
Qed.
Lemma dim_sub n t t' : dim n t -> (forall b, leaf_of b t' -> leaf_of b t) -> dim n t'.
Proof. intros D H b Hb. apply D. auto. Qed.

Theorem C53_leaves : forall n t, dim n t -> forall b, List.In b (leaves_list t) <-> leaf_of b t /\ some_point b.
Proof.
  intros n t. unfold leaves_list. induction t as [x|x l IHl|x r IHr|x l IHl r IHr]; intros D b; cbn [leaves_push].
  - destruct (D x (lf_leaf x)) as [L W]. destruct (m_is_empty x) eqn:E; cbn [negb].
    + split; [intros []|]. intros [H P]. inversion H; subst. apply point_iff in P; auto. congruence.
    + split.
      * intros [<-|[]]. split; [constructor|]. apply point_iff; auto.
      * intros [H _]. inversion H; subst. left; auto.
  - rewrite IHl by (eapply dim_sub; eauto; intros; constructor; auto). split; intros [H P]; split; auto; [constructor; auto|inversion H; subst; auto].
  - rewrite IHr by (eapply dim_sub; eauto; intros; constructor; auto). split; intros [H P]; split; auto; [constructor; auto|inversion H; subst; auto].
  - rewrite in_app_iff, IHl, IHr.
    + split; [intros [[H P]|[H P]]; split; auto; [constructor; auto|apply lf_both_r; auto]|]. intros [H P]. inversion H; subst; auto.
    + eapply dim_sub; eauto; intros; apply lf_both_r; auto.
    + eapply dim_sub; eauto; intros; constructor; auto.
Qed.

Lemma inter_loop_eq x : forall y, length x = length y -> inter_loop x y = Some (all2 intersects x y).
Proof.
  induction x as [|i x IH]; intros y L; destruct y as [|j y]; cbn in *; try lia; auto.
  destruct (intersects i j); cbn; auto.
Qed.
Lemma dyn_eq x y : length x = length y -> m_intersects_dyn x y = Some (m_intersects x y).
Proof. intros L. unfold m_intersects_dyn, m_intersects. destruct (m_is_empty x || m_is_empty y); auto. apply inter_loop_eq; auto. Qed.
Lemma whole_in n p : length p = n -> inb p (whole n).
Proof. intros <-. unfold whole. induction p; cbn; constructor; auto. split; exact I. Qed.
Lemma whole_wf n : Forall wf (whole n).
Proof. unfold whole. induction n; cbn; constructor; auto. exact I. Qed.
Lemma inb_len2 p x : inb p x -> length p = length x.
Proof. intros H; induction H; cbn; auto. Qed.
Lemma meets_whole n b : length b = n -> (meet b (whole n) <-> some_point b).
Proof.
  intros L. split; [intros (p & H & _); exists p; auto|]. intros [p Hp]. exists p. split; auto. apply whole_in. rewrite (inb_len2 _ _ Hp). auto.
Qed.

(** *** on a leaf, exactly the box that meets the filter *)
Theorem C53_leaf_partial : forall n dflt x f, dim n (PLeaf x) -> length f = n -> Forall wf f ->
  exists l, boxes_list dflt (PLeaf x) f = Some l /\
    forall b, List.In b l <-> leaf_of b (PLeaf x) /\ some_point b /\ meet b f.
Proof.
  intros n dflt x f D Lf Wf. destruct (D x (lf_leaf x)) as [L W]. unfold boxes_list. cbn [boxes_push].
  pose proof (C70_intersects x f W Wf ltac:(lia)) as I. destruct (m_is_empty x) eqn:E; cbn [negb].
  - exists []. split; auto. intros b. split; [intros []|]. intros (H & P & _). inversion H; subst. apply point_iff in P; auto. congruence.
  - rewrite dyn_eq by lia. destruct (m_intersects x f).
    + exists [x]. split; auto. intros b. split.
      * intros [<-|[]]. refine (conj _ (conj _ _)); [constructor|apply point_iff; auto|apply I; auto].
      * intros (H & _). inversion H; subst. left; auto.
    + exists []. split; auto. intros b. split; [intros []|]. intros (H & _ & M). inversion H; subst. apply I in M. discriminate.
Qed.

(** *** with a fixed dimension: each non-empty leaf below the root, whatever the filter *)
Lemma push_whole n t : dim n t -> exists l, boxes_push (dflt_static n) t (dflt_static n) = Some l /\ forall b, List.In b l <-> leaf_of b t /\ some_point b.
Proof.
  induction t as [x|x l IHl|x r IHr|x l IHl r IHr]; intros D.
  - destruct (D x (lf_leaf x)) as [L W].
    destruct (C53_leaf_partial n (dflt_static n) x (dflt_static n) D) as (l & E & H); [apply repeat_length|apply whole_wf|].
    exists l. split; auto. intros b. rewrite H. split; [tauto|]. intros [A B]. refine (conj A (conj B _)). apply meets_whole; auto. inversion A; subst; auto.
  - cbn [boxes_push]. destruct IHl as (k & E & H); [eapply dim_sub; eauto; intros; constructor; auto|]. exists k. split; auto. intros b. rewrite H.
    split; intros [A P]; split; auto; [constructor; auto|inversion A; subst; auto].
  - cbn [boxes_push]. destruct IHr as (k & E & H); [eapply dim_sub; eauto; intros; constructor; auto|]. exists k. split; auto. intros b. rewrite H.
    split; intros [A P]; split; auto; [constructor; auto|inversion A; subst; auto].
  - cbn [boxes_push]. destruct IHl as (k & -> & H); [eapply dim_sub; eauto; intros; constructor; auto|].
    destruct IHr as (k' & -> & H'); [eapply dim_sub; eauto; intros; apply lf_both_r; auto|]. exists (k ++ k'). split; auto. intros b. rewrite in_app_iff, H, H'.
    split; [intros [[A P]|[A P]]; split; auto; [constructor; auto|apply lf_both_r; auto]|]. intros [A P]. inversion A; subst; auto.
Qed.
Definition is_leaf (t : pnode) : Prop := exists x, t = PLeaf x.
Lemma push_any n t f : ~ is_leaf t -> boxes_push (dflt_static n) t f = boxes_push (dflt_static n) t (dflt_static n).
Proof. intros H. destruct t; cbn; auto. destruct H. exists x; auto. Qed.

(** without filter (the default argument), exactly the non-empty leaves *)
Theorem C53_partial : forall n t, dim n t ->
  exists l, boxes_list (dflt_static n) t (whole n) = Some l /\
    forall b, List.In b l <-> leaf_of b t /\ some_point b /\ meet b (whole n).
Proof.
  intros n t D. destruct (push_whole n t D) as (l & E & H). exists l. split; auto. intros b. rewrite H. split.
  - intros [A B]. refine (conj A (conj B _)). apply meets_whole; auto. apply (D b); auto.
  - tauto.
Qed.
(** with a filter: no non-empty leaf that meets it is forgotten, only non-empty leaves are given *)
Theorem C53_filter_partial : forall n t f, dim n t -> length f = n -> Forall wf f ->
  exists l, boxes_list (dflt_static n) t f = Some l /\
    (forall b, leaf_of b t -> meet b f -> List.In b l) /\
    (forall b, List.In b l -> leaf_of b t /\ some_point b) /\
    (~ is_leaf t -> forall b, leaf_of b t -> some_point b -> List.In b l).
Proof.
  intros n t f D Lf Wf. destruct t as [x|x l|x r|x l r].
  - destruct (C53_leaf_partial n (dflt_static n) x f D Lf Wf) as (l & E & H). exists l. refine (conj E (conj _ (conj _ _))).
    + intros b A M. apply H. refine (conj A (conj _ M)). destruct M as (p & Hp & _). exists p; auto.
    + intros b Hb. apply H in Hb. tauto.
    + intros N. destruct N. exists x; auto.
  - destruct (push_whole n _ D) as (k & E & H). exists k. unfold boxes_list. rewrite push_any by (intros [? ?]; discriminate). refine (conj E (conj _ (conj _ _))).
    + intros b A (p & Hp & _). apply H. split; auto. exists p; auto.
    + intros b Hb. apply H; auto.
    + intros _ b A B. apply H; auto.
  - destruct (push_whole n _ D) as (k & E & H). exists k. unfold boxes_list. rewrite push_any by (intros [? ?]; discriminate). refine (conj E (conj _ (conj _ _))).
    + intros b A (p & Hp & _). apply H. split; auto. exists p; auto.
    + intros b Hb. apply H; auto.
    + intros _ b A B. apply H; auto.
  - destruct (push_whole n _ D) as (k & E & H). exists k. unfold boxes_list. rewrite push_any by (intros [? ?]; discriminate). refine (conj E (conj _ (conj _ _))).
    + intros b A (p & Hp & _). apply H. split; auto. exists p; auto.
    + intros b Hb. apply H; auto.
    + intros _ b A B. apply H; auto.
Qed.

(** *** witnesses: [0,4] cut in [0,2] and [2,4] *)
Definition t04 : pnode := PBoth [I2 0 4] (PLeaf [I2 0 2]) (PLeaf [I2 2 4]).
Lemma t04_leaf b : leaf_of b t04 -> b = [I2 0 2] \/ b = [I2 2 4].
Proof. intros H. inversion H; subst; inversion H1; subst; auto. Qed.
Lemma t04_dim : dim 1 t04.
Proof. intros b H. destruct (t04_leaf _ H) as [->| ->]; split; auto; repeat constructor; cbn; lra. Qed.
Lemma t04_bisect : p_bisect bis_mid [] (PLeaf [I2 0 4]) = Some t04.
Proof.
  cbn. unfold m_bisect. cbn. replace (Rltb (-1) (4 - 0)) with true by (symmetry; apply Rltb_true; lra). cbn.
  replace (Rltb 0 4) with true by (symmetry; apply Rltb_true; lra). cbn. unfold t04, I2. replace ((0 + 4) / 2) with 2 by lra. reflexivity.
Qed.
(** the box [2,4] is given though it does not meet the filter [0,1] *)
Theorem C53_refuted : exists t f l b, dim 1 t /\ length f = 1%nat /\ Forall wf f /\
  p_bisect bis_mid [] (PLeaf [I2 0 4]) = Some t /\
  boxes_list (dflt_static 1) t f = Some l /\ List.In b l /\ ~ meet b f.
Proof.
  destruct (C53_filter_partial 1 t04 [I2 0 1] t04_dim eq_refl) as (l & E & _ & _ & H); [repeat constructor; cbn; lra|].
  exists t04, [I2 0 1], l, [I2 2 4]. refine (conj t04_dim (conj eq_refl (conj _ (conj t04_bisect (conj E (conj _ _)))))).
  - repeat constructor; cbn; lra.
  - apply H.
    + intros [x Hx]. discriminate.
    + apply lf_both_r. constructor.
    + exists [2]. repeat constructor; cbn; lra.
  - intros (p & A & B). unb A. unb B. lra.
Qed.
(** with a dynamic dimension, the call reads components that do not exist, even without filter on the children *)
Theorem C53_dynamic_refuted : exists t, dim 1 t /\ p_bisect bis_mid [] (PLeaf [I2 0 4]) = Some t /\
  forall f, boxes_list dflt_dynamic t f = None.
Proof. exists t04. refine (conj t04_dim (conj t04_bisect _)). intros f. reflexivity. Qed.

(** ** C73: pavings built by bisections *)
Inductive built (bis : itv -> option (itv * itv)) (x : box) : pnode -> Prop :=
| bt_root : built bis x (PLeaf x)
| bt_cut t w t' : built bis x t -> p_bisect bis w t = Some t' -> built bis x t'.

(** both children or none everywhere *)
Fixpoint full (t : pnode) : Prop :=
  match t with PLeaf _ => True | PBoth _ l r => full l /\ full r | _ => False end.

Fixpoint prod_diam (x : box) : R := match x with [] => 1 | i :: x => i_diam i * prod_diam x end.

Lemma vol_scale x : forall v, vol_loop x v = option_map (fun c => exp v * c) (vol_loop x 0).
Proof.
  induction x as [|i x IH]; intros v; cbn.
  - rewrite exp_0. f_equal. ring.
  - destruct (is_unbounded i); auto. destruct (is_degenerated i); cbn; [f_equal; ring|].
    rewrite IH, (IH (0 + _)). destruct (vol_loop x 0); cbn; auto. f_equal. rewrite Rplus_0_l, exp_plus. ring.
Qed.
Lemma diam_pos i : wf i -> i <> Emp -> is_unbounded i = false -> is_degenerated i = false -> 0 < i_diam i.
Proof.
  intros W N U D. destruct i as [|[a|] [b|]]; cbn in *; try congruence; try discriminate. apply Reqb_false in D. lra.
Qed.

(** the volume of a bounded box is the product of the widths *)
Theorem C73_volume : forall x, Forall wf x -> m_is_empty x = false -> Forall bounded x -> m_volume x = Some (prod_diam x).
Proof.
  intros x W E B. unfold m_volume. rewrite E. pose proof (nice_of _ W E) as N. clear W E.
  induction x as [|i x IH]; cbn.
  - rewrite exp_0. reflexivity.
  - inversion B as [|? ? (a & b & Ei) B']; subst. inversion N as [|? ? [N1 W1] N']; subst. cbn [is_unbounded].
    destruct (is_degenerated (Itv (Some a) (Some b))) eqn:D.
    + cbn in D. apply Reqb_true in D. cbn [i_diam]. f_equal. subst. ring.
    + rewrite vol_scale, IH by auto. cbn [option_map]. f_equal. rewrite Rplus_0_l, exp_ln; auto. apply diam_pos; auto.
Qed.

Lemma vol_cut x : forall r l h m v, (r < length x)%nat -> nth r x Emp = Itv l h ->
  (forall u, l = Some u -> u < m) -> (forall u, h = Some u -> m < u) ->
  vol_loop x v = vadd (vol_loop (bset r (Itv l (Some m)) x) v) (vol_loop (bset r (Itv (Some m) h) x) v).
Proof.
  induction x as [|i x IH]; intros r l h m v Lr N Hl Hh; cbn in Lr; [lia|]. destruct r as [|r]; cbn [nth bset vol_loop] in *.
  - subst i. destruct l as [l|], h as [h|]; cbn [is_unbounded is_degenerated i_diam]; auto.
    + specialize (Hl _ eq_refl). specialize (Hh _ eq_refl).
      assert (D1 : Reqb l h = false) by (apply Reqb_false; lra). assert (D2 : Reqb l m = false) by (apply Reqb_false; lra).
      assert (D3 : Reqb m h = false) by (apply Reqb_false; lra). rewrite D1, D2, D3.
      rewrite (vol_scale x (v + ln (h - l))), (vol_scale x (v + ln (m - l))), (vol_scale x (v + ln (h - m))).
      destruct (vol_loop x 0); cbn; auto. f_equal. rewrite !exp_plus, !exp_ln by lra. ring.
    + specialize (Hl _ eq_refl). assert (D2 : Reqb l m = false) by (apply Reqb_false; lra). rewrite D2. destruct (vol_loop x _); reflexivity.
  - destruct (is_unbounded i); auto. destruct (is_degenerated i); [cbn; f_equal; ring|]. apply IH; auto; lia.
Qed.

(** change of one coordinate *)
Lemma inb_nth2 : forall x q r u, inb q x -> (r < length x)%nat -> In u (nth r x Emp) -> length q = length x -> inb (firstn r q ++ u :: skipn (S r) q) x.
Proof.
  induction x as [|i x IH]; intros q r u H L Hu Lq; cbn in L; [lia|]. destruct q as [|v q]; [inversion H|]. apply inb_cons in H. destruct H as [Hv H].
  destruct r as [|r]; cbn [firstn skipn app nth] in *.
  - apply inb_cons; auto.
  - apply inb_cons. split; auto. cbn in Lq. apply IH; auto; lia.
Qed.

Section Built.
  Variable bis : itv -> option (itv * itv).
  Hypothesis Hb : ibis_ok bis.
  Variable x0 : box.
  Hypothesis W0 : Forall wf x0.

  (** what bisections keep, on each node *)
  Fixpoint node_ok (t : pnode) : Prop :=
    match t with
    | PLeaf x => length x = length x0 /\ Forall wf x /\ m_is_empty x = m_is_empty x0
    | PBoth x l r => (length x = length x0 /\ Forall wf x) /\ node_ok l /\ node_ok r /\ (forall p, inb p x <-> inb p (pbox l) \/ inb p (pbox r)) /\
        m_volume x = vadd (m_volume (pbox l)) (m_volume (pbox r))
    | _ => False
    end.
  Lemma bisect_volume x a b : Forall wf x -> m_bisect bis x = Some (a, b) -> m_is_empty x = false -> m_is_empty a = false -> m_is_empty b = false ->
    m_volume x = vadd (m_volume a) (m_volume b).
  Proof.
    intros W H E Ea E2. unfold m_volume. rewrite E, Ea, E2. unfold m_bisect in H. destruct (extr_diam_index false x) as [r|]; [|discriminate].
    destruct (bis (nth r x Emp)) as [[c d]|] eqn:B; [|discriminate]. inversion H; subst.
    destruct (nth r x Emp) as [|l h] eqn:N; [rewrite (ib_emp _ Hb) in B; discriminate|].
    destruct (ib_cut _ Hb _ _ _ _ B) as (m & Hl & Hh & -> & ->). apply vol_cut; auto.
    destruct (le_lt_dec (length x) r) as [L|L]; auto. rewrite nth_overflow in N by auto. discriminate.
  Qed.
  Lemma bisect_node w : forall t t', node_ok t -> p_bisect bis w t = Some t' -> node_ok t' /\ pbox t' = pbox t.
  Proof.
    induction w as [|d w IH]; intros t t' H E.
    - destruct t as [x|x l|x r|x l r]; try discriminate. cbn in E. destruct (m_bisect bis x) as [[a b]|] eqn:B; [|discriminate]. inversion E; subst.
      cbn in H. destruct H as (L & W & Em). destruct (C71_bisect bis x a b Hb W B) as (r & m & Er & Lr & (u & v & Hu & Hv & Hm) & P1 & P2 & P & _ & L1 & L2 & W1 & W2).
      assert (Ex : m_is_empty x = false). { unfold m_bisect, extr_diam_index in B. destruct (m_is_empty x); auto; discriminate. }
      destruct (witness x W Ex) as [q Hq].
      assert (A : exists p, inb p a).
      { exists (firstn r q ++ u :: skipn (S r) q). apply P1. assert (Lq : length q = length x) by (apply inb_len2; auto). split.
        - apply inb_nth2; auto.
        - rewrite app_nth2; rewrite firstn_length_le by lia; [|lia]. rewrite Nat.sub_diag. cbn. lra. }
      assert (A2 : exists p, inb p b).
      { exists (firstn r q ++ v :: skipn (S r) q). apply P2. assert (Lq : length q = length x) by (apply inb_len2; auto). split.
        - apply inb_nth2; auto.
        - rewrite app_nth2; rewrite firstn_length_le by lia; [|lia]. rewrite Nat.sub_diag. cbn. lra. }
      assert (Ea : m_is_empty a = false) by (destruct A as [p Hp]; eapply empty_false; eauto).
      assert (Eb : m_is_empty b = false) by (destruct A2 as [p Hp]; eapply empty_false; eauto).
      split; auto. cbn. refine (conj (conj L W) (conj _ (conj _ (conj P _)))); [rewrite L1; refine (conj L (conj W1 _)); congruence|rewrite L2; refine (conj L (conj W2 _)); congruence|].
      apply bisect_volume; auto.
    - destruct t as [x|x l|x r|x l r]; try (destruct d; discriminate); try (destruct H; fail).
      destruct d; cbn in E.
      + destruct (p_bisect bis w l) as [l'|] eqn:B; [|discriminate]. inversion E; subst. cbn in H. destruct H as (D & Hl & Hr & P & V).
        destruct (IH _ _ Hl B) as [Hl' El]. split; auto. cbn. rewrite El. auto.
      + destruct (p_bisect bis w r) as [r'|] eqn:B; [|discriminate]. inversion E; subst. cbn in H. destruct H as (D & Hl & Hr & P & V).
        destruct (IH _ _ Hr B) as [Hr' El]. split; auto. cbn. rewrite El. auto.
  Qed.
  Lemma built_ok t : built bis x0 t -> node_ok t /\ pbox t = x0.
  Proof.
    intros H. induction H as [|t w t' H IH E]; [cbn; auto|]. destruct IH as [N E0]. destruct (bisect_node w t t' N E) as [N' E'].
    split; auto. congruence.
  Qed.

  Lemma node_dim t : node_ok t -> dim (length x0) t.
  Proof.
    induction t as [x|x l IHl|x r IHr|x l IHl r IHr]; intros N b Hl; cbn in N; try (destruct N; fail).
    - inversion Hl; subst. tauto.
    - destruct N as (_ & Nl & Nr & _). inversion Hl; subst; [apply IHl|apply IHr]; auto.
  Qed.
  Lemma node_cover t : node_ok t -> forall p, inb p (pbox t) <-> exists b, leaf_of b t /\ inb p b.
  Proof.
    induction t as [x|x l IHl|x r IHr|x l IHl r IHr]; intros N p; cbn in N; try (destruct N; fail).
    - split; [intros H; exists x; split; auto; constructor|]. intros (b & H & Hp). inversion H; subst; auto.
    - destruct N as (_ & Nl & Nr & P & _). cbn [pbox]. rewrite P, IHl, IHr by auto. split.
      + intros [(b & H & Hp)|(b & H & Hp)]; exists b; split; auto; [constructor; auto|apply lf_both_r; auto].
      + intros (b & H & Hp). inversion H; subst; [left|right]; exists b; auto.
  Qed.
  Lemma node_vol t : node_ok t -> p_volume t = m_volume (pbox t).
  Proof.
    induction t as [x|x l IHl|x r IHr|x l IHl r IHr]; intros N; cbn in N; try (destruct N; fail); auto.
    destruct N as (_ & Nl & Nr & _ & V). cbn. rewrite V, IHl, IHr by auto. destruct (m_volume (pbox l)), (m_volume (pbox r)); cbn; auto. f_equal. ring.
  Qed.
  Lemma node_empty t : node_ok t -> p_is_empty t = m_is_empty x0.
  Proof.
    induction t as [x|x l IHl|x r IHr|x l IHl r IHr]; intros N; cbn in N; try (destruct N; fail).
    - cbn. tauto.
    - destruct N as (_ & Nl & Nr & _). cbn. rewrite IHl, IHr by auto. apply andb_diag.
  Qed.
End Built.

(** the hull of the leaves, for any paving *)
Lemma emp_hull n x : length x = n -> Forall wf x -> length (m_hull (repeat Emp n) x) = n /\ Forall wf (m_hull (repeat Emp n) x) /\
  (forall p, inb p (m_hull (repeat Emp n) x) <-> inb p x).
Proof.
  intros L W. unfold m_hull. destruct (m_is_empty x) eqn:E.
  - refine (conj (repeat_length _ _) (conj _ _)).
    + apply Forall_forall. intros i Hi. apply repeat_spec in Hi. subst. exact I.
    + intros p. split; intros H; [|apply empty_false in H; congruence]. destruct n; cbn in H; [destruct x; [exact H|discriminate]|]. inversion H; subst. destruct H3.
  - destruct n as [|n]; cbn.
    + destruct x; [|discriminate]. repeat split; auto.
    + refine (conj L (conj W _)). tauto.
Qed.
Lemma hull_len2 n x y : length x = n -> length y = n -> length (m_hull x y) = n.
Proof.
  intros <- L. unfold m_hull. destruct (m_is_empty y); auto. destruct (m_is_empty x); auto.
  revert y L. induction x; intros [|j y] L; cbn in *; try lia; auto.
Qed.
Theorem C73_hull_box : forall n t, dim n t ->
  (forall b p, leaf_of b t -> inb p b -> inb p (p_hull_box n t)) /\
  (forall z, length z = n -> (forall b p, leaf_of b t -> inb p b -> inb p z) -> forall p, inb p (p_hull_box n t) -> inb p z).
Proof.
  intros n t D. assert (Q : length (p_hull_box n t) = n /\ Forall wf (p_hull_box n t) /\
    (forall b p, leaf_of b t -> inb p b -> inb p (p_hull_box n t)) /\
    (forall z, length z = n -> (forall b p, leaf_of b t -> inb p b -> inb p z) -> forall p, inb p (p_hull_box n t) -> inb p z)); [|tauto].
  induction t as [x|x l IHl|x r IHr|x l IHl r IHr]; cbn [p_hull_box].
  - destruct (D x (lf_leaf x)) as [L W]. refine (conj L (conj W (conj _ _))).
    + intros b p H. inversion H; subst; auto.
    + intros z _ H p Hp. apply (H x p); auto. constructor.
  - destruct IHl as (L & W & A & B); [eapply dim_sub; eauto; intros; constructor; auto|].
    destruct (emp_hull n _ L W) as (L1 & W1 & H1). refine (conj L1 (conj W1 (conj _ _))).
    + intros b p H Hp. apply H1. inversion H; subst. eauto.
    + intros z Lz H p Hp. apply H1 in Hp. apply (B z); auto. intros b q Hb. apply H. constructor; auto.
  - destruct IHr as (L & W & A & B); [eapply dim_sub; eauto; intros; constructor; auto|].
    destruct (emp_hull n _ L W) as (L1 & W1 & H1). refine (conj L1 (conj W1 (conj _ _))).
    + intros b p H Hp. apply H1. inversion H; subst. eauto.
    + intros z Lz H p Hp. apply H1 in Hp. apply (B z); auto. intros b q Hb. apply H. constructor; auto.
  - destruct IHl as (L & W & A & B); [eapply dim_sub; eauto; intros; constructor; auto|].
    destruct IHr as (L' & W' & A' & B'); [eapply dim_sub; eauto; intros; apply lf_both_r; auto|].
    destruct (emp_hull n _ L W) as (L1 & W1 & H1).
    destruct (C70_hull _ _ W1 W' ltac:(congruence)) as [U V].
    refine (conj (hull_len2 n _ _ L1 L') (conj (hull_wf _ _ W1 W') (conj _ _))).
    + intros b p H Hp. apply U. inversion H; subst; [left; apply H1; eauto|right; eauto].
    + intros z Lz H. apply V; [congruence|]. intros p [Hp|Hp].
      * apply H1 in Hp. apply (B z); auto. intros b q Hb. apply H. constructor; auto.
      * apply (B' z); auto. intros b q Hb. apply H. apply lf_both_r; auto.
Qed.

(** is_empty: sound for each paving, exact when each node has both children or none *)
Theorem C73_is_empty_partial : forall n t, dim n t ->
  (p_is_empty t = true -> ~ exists b, leaf_of b t /\ some_point b) /\
  (full t -> (p_is_empty t = true <-> ~ exists b, leaf_of b t /\ some_point b)).
Proof.
  intros n t D. assert (S1 : p_is_empty t = true -> ~ exists b, leaf_of b t /\ some_point b).
  { induction t as [x|x l IHl|x r IHr|x l IHl r IHr]; cbn; intros E (b & Hb & P).
    - inversion Hb; subst. destruct (D x (lf_leaf x)) as [_ W]. apply point_iff in P; auto. congruence.
    - rewrite andb_false_r in E. discriminate.
    - discriminate.
    - apply andb_true_iff in E. destruct E as [E1 E2]. inversion Hb; subst.
      + apply IHl; auto; [eapply dim_sub; eauto; intros; constructor; auto|eauto].
      + apply IHr; auto; [eapply dim_sub; eauto; intros; apply lf_both_r; auto|eauto]. }
  split; auto. intros F. split; auto. clear S1. induction t as [x|x l IHl|x r IHr|x l IHl r IHr]; cbn in *; intros H; try (destruct F; fail).
  - destruct (m_is_empty x) eqn:E; auto. destruct H. exists x. split; [constructor|]. apply point_iff; auto. apply (D x). constructor.
  - destruct F as [Fl Fr]. apply andb_true_iff. split.
    + apply IHl; auto; [eapply dim_sub; eauto; intros; constructor; auto|]. intros (b & A & P). apply H. exists b. split; auto. constructor; auto.
    + apply IHr; auto; [eapply dim_sub; eauto; intros; apply lf_both_r; auto|]. intros (b & A & P). apply H. exists b. split; auto. apply lf_both_r; auto.
Qed.
(** an empty paving with one child only is said not empty *)
Theorem C73_is_empty_refuted : exists t, dim 1 t /\ (~ exists b, leaf_of b t /\ some_point b) /\ p_is_empty t = false.
Proof.
  exists (PLeft [I2 0 1] (PLeaf [Emp])). refine (conj _ (conj _ eq_refl)).
  - intros b H. inversion H; subst. inversion H1; subst. split; auto. repeat constructor.
  - intros (b & H & p & Hp). inversion H; subst. inversion H1; subst. destruct p as [|v p]; [inversion Hp|]. apply inb_cons in Hp. destruct Hp as [[] _].
Qed.

(** ** a paving built by bisections: the leaves cover exactly the initial box, and the volume is that of the box *)
Theorem C73 : forall bis x t, ibis_ok bis -> Forall wf x -> built bis x t ->
  (forall p, inb p x <-> exists b, List.In b (leaves_list t) /\ inb p b) /\
  (forall p, inb p (p_hull_box (length x) t) <-> inb p x) /\
  p_volume t = m_volume x /\ p_is_empty t = m_is_empty x.
Proof.
  intros bis x t Hb W H. destruct (built_ok bis Hb x W t H) as [N E]. pose proof (node_dim x t N) as D.
  pose proof (node_cover x t N) as C. rewrite E in C.
  refine (conj _ (conj _ (conj _ _))).
  - intros p. rewrite C. split.
    + intros (b & A & Hp). exists b. split; auto. apply (C53_leaves (length x)); auto. split; auto. exists p; auto.
    + intros (b & A & Hp). apply (C53_leaves (length x)) in A; auto. exists b. tauto.
  - intros p. destruct (C73_hull_box (length x) t D) as [A B]. split.
    + apply B; auto. intros b q Hl Hq. apply C. exists b; auto.
    + intros Hp. apply C in Hp. destruct Hp as (b & Hl & Hp). eauto.
  - rewrite (node_vol x); auto. congruence.
  - apply (node_empty x); auto.
Qed.

(** the volume of an unbounded box with a degenerated component depends on the order of the components *)
Theorem C73_volume_refuted : exists i j, m_volume [i; j] = None /\ m_volume [j; i] = Some 0 /\ wf i /\ wf j.
Proof.
  exists ALL, (pt 0). refine (conj eq_refl (conj _ (conj I _))); [|cbn; lra].
  unfold m_volume. cbn. replace (Reqb 0 0) with true by (symmetry; apply Reqb_true; auto). reflexivity.
Qed.

Example C73_ex : built bis_mid [I2 0 4] t04 /\ m_volume [I2 0 4] = Some 4 /\ leaves_list t04 = [[I2 0 2]; [I2 2 4]].
Proof.
  refine (conj _ (conj _ eq_refl)).
  - apply bt_cut with (t := PLeaf [I2 0 4]) (w := []); [constructor|apply t04_bisect].
  - rewrite C73_volume; [cbn; f_equal; ring|repeat constructor; cbn; lra|reflexivity|]. repeat constructor. exists 0, 4. reflexivity.
Qed.
Print Assumptions C73.
Print Assumptions C53_filter_partial.
Print Assumptions C53_refuted.
