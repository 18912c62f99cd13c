(** * Closed intervals of extended reals (model of [ibex::Interval] / [codac::Interval])

    [codac::Interval] is [ibex::Interval] (/repo/src/core/domains/interval/codac_Interval.h).
    IBEX itself is not part of /repo; what is modelled here are its *set* operations, which
    never round: intersection [&], hull [|], inclusion tests, emptiness tests.

    Simplifications: finite bounds are arbitrary reals (doubles are a subset); a lower bound
    is finite or -oo, an upper bound is finite or +oo, as in IBEX. *)

From Coq Require Import Reals Lra Bool List.
Import ListNotations.
Open Scope R_scope.

(** IBEX interval: empty, or a pair of bounds; [None] is -oo (resp. +oo).
    ibex::Interval, included by codac_Interval.h 15-20 *)
Inductive itv : Type :=
| Emp : itv
| Itv : option R -> option R -> itv.

(** Membership in the set represented by the interval. ibex::Interval, included by codac_Interval.h 15-20 *)
Definition lo_le (l : option R) (x : R) : Prop :=
  match l with None => True | Some a => a <= x end.
(** ibex::Interval, included by codac_Interval.h 15-20 *)
Definition le_hi (x : R) (h : option R) : Prop :=
  match h with None => True | Some b => x <= b end.
(** ibex::Interval, included by codac_Interval.h 15-20 *)
Definition In (x : R) (i : itv) : Prop :=
  match i with Emp => False | Itv l h => lo_le l x /\ le_hi x h end.

(** The invariant of IBEX intervals: non-empty bounds are ordered.
    ibex::Interval, included by codac_Interval.h 15-20 *)
Definition wf (i : itv) : Prop :=
  match i with Itv (Some a) (Some b) => a <= b | _ => True end.

(** [Interval(a,b)]: IBEX turns unordered bounds into the empty set.
    ibex::Interval, included by codac_Interval.h 15-20 *)
Definition mk (l h : option R) : itv :=
  match l, h with
  | Some a, Some b => if Rle_dec a b then Itv l h else Emp
  | _, _ => Itv l h
  end.

(** [Interval(x)], [Interval::ALL_REALS], [POS_REALS], [NEG_REALS].
    ibex::Interval, included by codac_Interval.h 15-20 *)
Definition pt (x : R) : itv := Itv (Some x) (Some x).
(** Interval(a,b), ibex::Interval, included by codac_Interval.h 15-20 *)
Definition bnd (a b : R) : itv := mk (Some a) (Some b).
(** Interval::ALL_REALS, ibex::Interval, included by codac_Interval.h 15-20 *)
Definition ALL : itv := Itv None None.
(** Interval::POS_REALS, ibex::Interval, included by codac_Interval.h 15-20 *)
Definition POS : itv := Itv (Some 0) None.
(** Interval::NEG_REALS, ibex::Interval, included by codac_Interval.h 15-20 *)
Definition NEG : itv := Itv None (Some 0).

(** lower bound of an intersection, ibex::Interval, included by codac_Interval.h 15-20 *)
Definition max_lo (a b : option R) : option R :=
  match a, b with
  | None, y => y | x, None => x
  | Some x, Some y => Some (Rmax x y)
  end.
(** upper bound of an intersection, ibex::Interval, included by codac_Interval.h 15-20 *)
Definition min_hi (a b : option R) : option R :=
  match a, b with
  | None, y => y | x, None => x
  | Some x, Some y => Some (Rmin x y)
  end.
(** lower bound of a hull, ibex::Interval, included by codac_Interval.h 15-20 *)
Definition min_lo (a b : option R) : option R :=
  match a, b with
  | Some x, Some y => Some (Rmin x y) | _, _ => None
  end.
(** upper bound of a hull, ibex::Interval, included by codac_Interval.h 15-20 *)
Definition max_hi (a b : option R) : option R :=
  match a, b with
  | Some x, Some y => Some (Rmax x y) | _, _ => None
  end.

(** [operator&]; ibex::Interval, included by codac_Interval.h 15-20 *)
Definition inter (i j : itv) : itv :=
  match i, j with
  | Itv l1 h1, Itv l2 h2 => mk (max_lo l1 l2) (min_hi h1 h2)
  | _, _ => Emp
  end.

(** [operator|] (convex hull of the union); ibex::Interval, included by codac_Interval.h 15-20 *)
Definition hull (i j : itv) : itv :=
  match i, j with
  | Emp, j => j
  | i, Emp => i
  | Itv l1 h1, Itv l2 h2 => Itv (min_lo l1 l2) (max_hi h1 h2)
  end.

(** comparison of two doubles (bounds of ibex::Interval, included by codac_Interval.h 15-20) *)
Definition Rleb (a b : R) : bool := if Rle_dec a b then true else false.
(** comparison of two doubles (bounds of ibex::Interval, included by codac_Interval.h 15-20) *)
Definition Rltb (a b : R) : bool := if Rlt_dec a b then true else false.
(** comparison of two doubles (bounds of ibex::Interval, included by codac_Interval.h 15-20) *)
Definition Reqb (a b : R) : bool := if Req_EM_T a b then true else false.

(** [is_empty()]; ibex::Interval, included by codac_Interval.h 15-20 *)
Definition is_empty (i : itv) : bool := match i with Emp => true | _ => false end.

(** Bounds comparisons; [lo_leb a b] : lower bound a <= lower bound b (with None = -oo);
    [hi_leb a b]: upper bound a <= upper bound b (with None = +oo).
    ibex::Interval, included by codac_Interval.h 15-20 *)
Definition lo_leb (a b : option R) : bool :=
  match a, b with None, _ => true | Some _, None => false | Some x, Some y => Rleb x y end.
(** ibex::Interval, included by codac_Interval.h 15-20 *)
Definition hi_leb (a b : option R) : bool :=
  match a, b with _, None => true | None, Some _ => false | Some x, Some y => Rleb x y end.

(** [is_subset(x)], [is_superset(x)]; ibex::Interval, included by codac_Interval.h 15-20 *)
Definition is_subset (i j : itv) : bool :=
  match i, j with
  | Emp, _ => true
  | Itv _ _, Emp => false
  | Itv l1 h1, Itv l2 h2 => lo_leb l2 l1 && hi_leb h1 h2
  end.
(** ibex::Interval, included by codac_Interval.h 15-20 *)
Definition is_superset (i j : itv) : bool := is_subset j i.

(** [contains(d)]; ibex::Interval, included by codac_Interval.h 15-20 *)
Definition lo_leb_r (l : option R) (x : R) : bool :=
  match l with None => true | Some a => Rleb a x end.
(** ibex::Interval, included by codac_Interval.h 15-20 *)
Definition hi_leb_r (x : R) (h : option R) : bool :=
  match h with None => true | Some b => Rleb x b end.
(** ibex::Interval, included by codac_Interval.h 15-20 *)
Definition contains (i : itv) (x : R) : bool :=
  match i with Emp => false | Itv l h => lo_leb_r l x && hi_leb_r x h end.

(** [intersects(x)]: the intersection is not empty; ibex::Interval, included by codac_Interval.h 15-20 *)
Definition intersects (i j : itv) : bool := negb (is_empty (inter i j)).

(** [==] on intervals; ibex::Interval, included by codac_Interval.h 15-20 *)
Definition opt_eqb (a b : option R) : bool :=
  match a, b with
  | None, None => true | Some x, Some y => Reqb x y | _, _ => false
  end.
(** ibex::Interval, included by codac_Interval.h 15-20 *)
Definition itv_eqb (i j : itv) : bool :=
  match i, j with
  | Emp, Emp => true
  | Itv a b, Itv c d => opt_eqb a c && opt_eqb b d
  | _, _ => false
  end.

(** [is_degenerated()]: lb()==ub(); IBEX documents the empty set as degenerated.
    ibex::Interval, included by codac_Interval.h 15-20 *)
Definition is_degenerated (i : itv) : bool :=
  match i with Emp => true | Itv (Some a) (Some b) => Reqb a b | _ => false end.

(** Bounds used by the code through [lb()] / [ub()] in comparisons with instants:
    [lb_lt i a] is [i.lb() < a], [ub_gt i a] is [i.ub() > a] (false for the empty set, whose
    bounds are NaN). ibex::Interval, included by codac_Interval.h 15-20 *)
Definition lb_lt (i : itv) (a : R) : bool :=
  match i with Emp => false | Itv None _ => true | Itv (Some l) _ => Rltb l a end.
(** ibex::Interval, included by codac_Interval.h 15-20 *)
Definition ub_gt (i : itv) (a : R) : bool :=
  match i with Emp => false | Itv _ None => true | Itv _ (Some h) => Rltb a h end.

(** [is_unbounded()]; ibex::Interval, included by codac_Interval.h 15-20 *)
Definition is_unbounded (i : itv) : bool :=
  match i with Itv (Some _) (Some _) => false | Emp => false | _ => true end.

(** Inclusion of sets. ibex::Interval, included by codac_Interval.h 15-20 *)
Definition sub (i j : itv) : Prop := forall x, In x i -> In x j.

(** ** Lemmas *)

Lemma Rleb_true a b : Rleb a b = true <-> a <= b.
Proof. unfold Rleb; destruct (Rle_dec a b); intuition; discriminate. Qed.
Lemma Rleb_false a b : Rleb a b = false <-> b < a.
Proof. unfold Rleb; destruct (Rle_dec a b); intuition; try discriminate; lra. Qed.
Lemma Rltb_true a b : Rltb a b = true <-> a < b.
Proof. unfold Rltb; destruct (Rlt_dec a b); intuition; discriminate. Qed.
Lemma Rltb_false a b : Rltb a b = false <-> b <= a.
Proof. unfold Rltb; destruct (Rlt_dec a b); intuition; try discriminate; lra. Qed.
Lemma Reqb_true a b : Reqb a b = true <-> a = b.
Proof. unfold Reqb; destruct (Req_EM_T a b); intuition; discriminate. Qed.
Lemma Reqb_false a b : Reqb a b = false <-> a <> b.
Proof. unfold Reqb; destruct (Req_EM_T a b); intuition; try discriminate; tauto. Qed.
Lemma Reqb_refl a : Reqb a a = true.
Proof. apply Reqb_true; reflexivity. Qed.

Lemma In_mk x l h : In x (mk l h) <-> lo_le l x /\ le_hi x h.
Proof.
  unfold mk; destruct l as [a|], h as [b|]; simpl; try tauto.
  destruct (Rle_dec a b); simpl; [tauto|]. split; [tauto|]. intros [? ?]; lra.
Qed.

Lemma wf_mk l h : wf (mk l h).
Proof. unfold mk; destruct l as [a|], h as [b|]; simpl; auto. destruct (Rle_dec a b); simpl; auto. Qed.

Lemma lo_le_max a b x : lo_le (max_lo a b) x <-> lo_le a x /\ lo_le b x.
Proof.
  destruct a, b; simpl; try tauto.
  split; [intro H; split; eapply Rle_trans; try apply H; [apply Rmax_l|apply Rmax_r]|].
  intros [? ?]; apply Rmax_lub; auto.
Qed.
Lemma le_hi_min a b x : le_hi x (min_hi a b) <-> le_hi x a /\ le_hi x b.
Proof.
  destruct a, b; simpl; try tauto.
  split; [intro H; split; eapply Rle_trans; try apply H; [apply Rmin_l|apply Rmin_r]|].
  intros [? ?]; apply Rmin_glb; auto.
Qed.

Lemma In_inter x i j : In x (inter i j) <-> In x i /\ In x j.
Proof.
  destruct i as [|l1 h1], j as [|l2 h2]; simpl; try tauto.
  rewrite In_mk, lo_le_max, le_hi_min. tauto.
Qed.
Lemma wf_inter i j : wf (inter i j).
Proof. destruct i, j; simpl; auto. apply wf_mk. Qed.

Lemma In_hull_l x i j : In x i -> In x (hull i j).
Proof.
  destruct i as [|l1 h1], j as [|l2 h2]; simpl; try tauto.
  intros [H1 H2]; split.
  - destruct l1, l2; simpl in *; auto. eapply Rle_trans; [apply Rmin_l|]; auto.
  - destruct h1, h2; simpl in *; auto. eapply Rle_trans; [|apply Rmax_l]; auto.
Qed.
Lemma In_hull_r x i j : In x j -> In x (hull i j).
Proof.
  destruct i as [|l1 h1], j as [|l2 h2]; simpl; try tauto.
  intros [H1 H2]; split.
  - destruct l1, l2; simpl in *; auto. eapply Rle_trans; [apply Rmin_r|]; auto.
  - destruct h1, h2; simpl in *; auto. eapply Rle_trans; [|apply Rmax_r]; auto.
Qed.
Lemma wf_hull i j : wf i -> wf j -> wf (hull i j).
Proof.
  destruct i as [|[a|] [b|]], j as [|[c|] [d|]]; simpl; auto.
  intros. eapply Rle_trans; [apply Rmin_l|]. eapply Rle_trans; [|apply Rmax_l]. auto.
Qed.

Lemma wf_pt x : wf (pt x). Proof. simpl; lra. Qed.
Lemma wf_ALL : wf ALL. Proof. exact I. Qed.
Lemma wf_Emp : wf Emp. Proof. exact I. Qed.
Lemma In_ALL x : In x ALL. Proof. simpl; auto. Qed.
Lemma In_pt x y : In x (pt y) <-> x = y.
Proof. simpl; split; [intros [? ?]; lra|intros ->; lra]. Qed.
Lemma In_bnd x a b : In x (bnd a b) <-> a <= x <= b.
Proof. unfold bnd; rewrite In_mk; simpl; tauto. Qed.

Lemma wf_witness i : wf i -> i <> Emp -> exists x, In x i.
Proof.
  destruct i as [|[a|] [b|]]; simpl; intros H Hn; try congruence.
  - exists a; lra.
  - exists a; lra.
  - exists b; lra.
  - exists 0; auto.
Qed.

Lemma contains_true i x : contains i x = true <-> In x i.
Proof.
  destruct i as [|[a|] [b|]]; simpl; rewrite ?andb_true_iff, ?Rleb_true; intuition congruence.
Qed.
Lemma contains_false i x : contains i x = false <-> ~ In x i.
Proof. rewrite <- contains_true. destruct (contains i x); intuition congruence. Qed.

Lemma is_empty_true i : is_empty i = true <-> i = Emp.
Proof. destruct i; simpl; split; congruence. Qed.
Lemma is_empty_false i : is_empty i = false <-> i <> Emp.
Proof. destruct i; simpl; split; congruence. Qed.

Lemma is_subset_sub i j : is_subset i j = true -> sub i j.
Proof.
  intros H x Hx; destruct i as [|[a|] [b|]], j as [|[c|] [d|]]; simpl in *;
    rewrite ?andb_true_iff, ?Rleb_true in *; intuition (try congruence; try lra).
Qed.

Lemma sub_is_subset i j : wf i -> sub i j -> is_subset i j = true.
Proof.
  intros W H; destruct i as [|[a|] [b|]]; simpl in *; auto; unfold sub in H; simpl in H.
  - destruct j as [|[c|] [d|]]; simpl in *.
    + exfalso; apply (H a); lra.
    + rewrite andb_true_iff, !Rleb_true. split; [apply (H a)|apply (H b)]; lra.
    + rewrite andb_true_iff, !Rleb_true. split; auto. apply (H a); lra.
    + rewrite !Rleb_true. apply (H b); lra.
    + reflexivity.
  - destruct j as [|[c|] [d|]]; simpl in *.
    + exfalso; apply (H a); lra.
    + exfalso. destruct (H (Rmax a (d+1))) as [_ H1].
      { split; auto. apply Rmax_l. }
      pose proof (Rmax_r a (d+1)); lra.
    + rewrite andb_true_iff, Rleb_true; split; auto. apply (H a); lra.
    + exfalso. destruct (H (Rmax a (d+1))) as [_ H1].
      { split; auto. apply Rmax_l. }
      pose proof (Rmax_r a (d+1)); lra.
    + reflexivity.
  - destruct j as [|[c|] [d|]]; simpl in *.
    + exfalso; apply (H b); lra.
    + exfalso. destruct (H (Rmin b (c-1))) as [H1 _].
      { split; auto. apply Rmin_l. }
      pose proof (Rmin_r b (c-1)); lra.
    + exfalso. destruct (H (Rmin b (c-1))) as [H1 _].
      { split; auto. apply Rmin_l. }
      pose proof (Rmin_r b (c-1)); lra.
    + rewrite Rleb_true. apply (H b); lra.
    + reflexivity.
  - destruct j as [|[c|] [d|]]; simpl in *.
    + exfalso; apply (H 0); auto.
    + exfalso; destruct (H (c-1)); auto; lra.
    + exfalso; destruct (H (c-1)); auto; lra.
    + exfalso; destruct (H (d+1)); auto; lra.
    + reflexivity.
Qed.

Lemma is_subset_spec i j : wf i -> (is_subset i j = true <-> sub i j).
Proof. split; [apply is_subset_sub|apply sub_is_subset; auto]. Qed.

Lemma intersects_spec i j : intersects i j = true <-> exists x, In x i /\ In x j.
Proof.
  unfold intersects. rewrite negb_true_iff, is_empty_false. split.
  - intro H. destruct (wf_witness (inter i j) (wf_inter i j) H) as [x Hx].
    exists x. apply In_inter; auto.
  - intros [x Hx] E. apply In_inter in Hx. rewrite E in Hx. exact Hx.
Qed.
Lemma intersects_false i j : intersects i j = false <-> forall x, In x i -> In x j -> False.
Proof.
  split.
  - intros H x Hi Hj. assert (intersects i j = true) by (apply intersects_spec; eauto). congruence.
  - intros H. destruct (intersects i j) eqn:E; auto.
    apply intersects_spec in E. destruct E as [x [? ?]]. exfalso; eauto.
Qed.

Lemma itv_eqb_true i j : itv_eqb i j = true <-> i = j.
Proof.
  split.
  - destruct i as [|[a|] [b|]], j as [|[c|] [d|]]; simpl;
      rewrite ?andb_true_iff, ?Reqb_true; intro H;
      repeat match goal with H : _ /\ _ |- _ => destruct H end; congruence.
  - intros <-. destruct i as [|[a|] [b|]]; simpl; rewrite ?Reqb_refl; reflexivity.
Qed.
Lemma itv_eqb_false i j : itv_eqb i j = false <-> i <> j.
Proof. rewrite <- itv_eqb_true. destruct (itv_eqb i j); split; congruence. Qed.
Lemma itv_eqb_refl i : itv_eqb i i = true.
Proof. apply itv_eqb_true; reflexivity. Qed.

Lemma sub_refl i : sub i i. Proof. intros x H; exact H. Qed.
Lemma sub_trans i j k : sub i j -> sub j k -> sub i k.
Proof. intros H1 H2 x Hx; auto. Qed.
Lemma sub_Emp i : sub Emp i. Proof. intros x []. Qed.
Lemma sub_ALL i : sub i ALL. Proof. intros x _; apply In_ALL. Qed.
Lemma sub_inter_l i j : sub (inter i j) i. Proof. intros x H; apply In_inter in H; tauto. Qed.
Lemma sub_inter_r i j : sub (inter i j) j. Proof. intros x H; apply In_inter in H; tauto. Qed.
Lemma sub_inter i j k : sub k i -> sub k j -> sub k (inter i j).
Proof. intros H1 H2 x Hx; apply In_inter; auto. Qed.
Lemma sub_hull_l i j : sub i (hull i j). Proof. intros x; apply In_hull_l. Qed.
Lemma sub_hull_r i j : sub j (hull i j). Proof. intros x; apply In_hull_r. Qed.

Lemma In_convex x y z i : In x i -> In z i -> x <= y <= z -> In y i.
Proof. destruct i as [|[a|] [b|]]; simpl; intuition lra. Qed.

(** hull is the least interval *)
Lemma hull_least i j k : wf i -> wf j -> sub i k -> sub j k -> sub (hull i j) k.
Proof.
  intros Wi Wj Hi Hj.
  destruct i as [|l1 h1]; [exact Hj|]. destruct j as [|l2 h2]; [exact Hi|].
  apply sub_is_subset in Hi; auto. apply sub_is_subset in Hj; auto.
  apply is_subset_sub. destruct k as [|l3 h3]; [discriminate|].
  simpl in *. apply andb_true_iff in Hi. apply andb_true_iff in Hj.
  destruct Hi as [A1 B1], Hj as [A2 B2]. apply andb_true_iff; split.
  - destruct l3, l1, l2; simpl in *; auto. rewrite Rleb_true in *. apply Rmin_glb; auto.
  - destruct h3, h1, h2; simpl in *; auto. rewrite Rleb_true in *. apply Rmax_lub; auto.
Qed.

(** A canonical interval is determined by its set. *)
Lemma wf_ext i j : wf i -> wf j -> (forall x, In x i <-> In x j) -> i = j.
Proof.
  intros Wi Wj H.
  assert (A : is_subset i j = true) by (apply sub_is_subset; auto; intros x; apply H).
  assert (B : is_subset j i = true) by (apply sub_is_subset; auto; intros x; apply H).
  destruct i as [|[a|] [b|]], j as [|[c|] [d|]]; simpl in *;
    rewrite ?andb_true_iff, ?Rleb_true in *; try congruence; try (destruct A, B; congruence);
    repeat match goal with H : _ /\ _ |- _ => destruct H end; try congruence;
    repeat f_equal; lra.
Qed.

Lemma inter_sub_eq i j : wf i -> sub i j -> inter i j = i.
Proof.
  intros W H. apply wf_ext; auto using wf_inter.
  intro x; rewrite In_inter; split; [tauto|]; auto.
Qed.
Lemma inter_comm i j : inter i j = inter j i.
Proof. apply wf_ext; auto using wf_inter. intro; rewrite !In_inter; tauto. Qed.
Lemma inter_assoc i j k : inter (inter i j) k = inter i (inter j k).
Proof. apply wf_ext; auto using wf_inter. intro; rewrite !In_inter; tauto. Qed.
Lemma sub_antisym i j : wf i -> wf j -> sub i j -> sub j i -> i = j.
Proof. intros; apply wf_ext; auto. split; auto. Qed.

(** decide membership *)
Lemma In_dec x i : {In x i} + {~ In x i}.
Proof.
  destruct (contains i x) eqn:E; [left; apply contains_true|right; apply contains_false]; auto.
Qed.

#[export] Hint Resolve wf_inter wf_hull wf_pt wf_ALL wf_Emp wf_mk : itv.
#[export] Hint Resolve sub_refl sub_inter_l sub_inter_r sub_hull_l sub_hull_r In_hull_l In_hull_r : itv.

(** Tactic for closed computations: decide comparisons of reals by [lra]. *)
Ltac rdec :=
  repeat first
  [ progress unfold Rleb, Rltb, Reqb, Rmax, Rmin in *
  | match goal with
    | |- context [Rle_dec ?a ?b] =>
        first [ destruct (Rle_dec a b) as [?|?]; [|exfalso; lra]
              | destruct (Rle_dec a b) as [?|?]; [exfalso; lra|] ]
    | |- context [Rlt_dec ?a ?b] =>
        first [ destruct (Rlt_dec a b) as [?|?]; [|exfalso; lra]
              | destruct (Rlt_dec a b) as [?|?]; [exfalso; lra|] ]
    | |- context [Req_EM_T ?a ?b] =>
        first [ destruct (Req_EM_T a b) as [?|?]; [|exfalso; lra]
              | destruct (Req_EM_T a b) as [?|?]; [exfalso; lra|] ]
    end; cbn ].
