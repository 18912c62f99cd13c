(** * Properties of the q-relaxed intersection (C44) *)

From Coq Require Import Reals Lra Bool List Arith ZArith Lia Permutation Sorted.
Import ListNotations.
From Verif Require Import Itv Concrete Static PropsStatic PropsDyn2 Sivia PropsSivia PropsSiviaEx Separators.
Open Scope R_scope.
Set Bullet Behavior "Strict Subproofs".

(** ** Specification: at least [n] elements of the list (as occurrences) satisfy [P] *)
Inductive at_least {A : Type} (P : A -> Prop) : nat -> list A -> Prop :=
| al_nil : at_least P 0 []
| al_skip n x l : at_least P n l -> at_least P n (x :: l)
| al_take n x l : P x -> at_least P n l -> at_least P (S n) (x :: l).

Lemma al_0 {A} (P : A -> Prop) l : at_least P 0 l.
Proof. induction l; [constructor|apply al_skip; auto]. Qed.
Lemma al_impl {A} (P Q : A -> Prop) n l : (forall x, List.In x l -> P x -> Q x) -> at_least P n l -> at_least Q n l.
Proof.
  intros H X. induction X as [|n x l X IH|n x l Hx X IH].
  - constructor.
  - apply al_skip, IH. intros; apply H; auto; right; auto.
  - apply al_take; [apply H; auto; left; auto|apply IH; intros; apply H; auto; right; auto].
Qed.
Lemma al_map {A B} (f : A -> B) (P : B -> Prop) n l : at_least (fun x => P (f x)) n l <-> at_least P n (map f l).
Proof.
  split.
  - intros X. induction X; cbn; [constructor|apply al_skip; auto|apply al_take; auto].
  - revert n. induction l as [|x l IH]; intros n X; cbn in X; inversion X; subst; [constructor|apply al_skip|apply al_take]; auto.
Qed.
Lemma al_axis k v n (l : list box) : at_least (fun b => In v (nth k b Emp)) n l <-> at_least (In v) n (map (fun b => nth k b Emp) l).
Proof. apply (al_map (fun b : box => nth k b Emp) (In v)). Qed.
Lemma al_filter {A} (P : A -> Prop) (f : A -> bool) n l : (forall x, P x -> f x = true) -> (at_least P n l <-> at_least P n (filter f l)).
Proof.
  intros H. split.
  - intros X. induction X as [|n x l X IH|n x l Hx X IH]; cbn; [constructor| |].
    + destruct (f x); [apply al_skip|]; auto.
    + rewrite (H _ Hx). apply al_take; auto.
  - revert n. induction l as [|x l IH]; intros n X; cbn in X; [auto|]. destruct (f x).
    + inversion X; subst; [apply al_skip|apply al_take]; auto.
    + apply al_skip; auto.
Qed.
Lemma al_count {A} (P : A -> Prop) (f : A -> bool) : (forall x, f x = true <-> P x) -> forall n l, at_least P n l <-> (n <= length (filter f l))%nat.
Proof.
  intros H n l. split.
  - intros X. induction X as [|n x l X IH|n x l Hx X IH]; cbn; [lia| |].
    + destruct (f x); cbn; lia.
    + apply H in Hx. rewrite Hx. cbn. lia.
  - revert n. induction l as [|x l IH]; intros n X; cbn in X.
    + assert (n = 0)%nat by lia. subst. constructor.
    + destruct (f x) eqn:E; [|apply al_skip; auto]. destruct n; [apply al_0|]. cbn in X. apply al_take; [apply H; auto|apply IH; lia].
Qed.
Lemma al_le {A} (P : A -> Prop) n m l : (m <= n)%nat -> at_least P n l -> at_least P m l.
Proof.
  intros L X. revert m L. induction X as [|n x l X IH|n x l Hx X IH]; intros m L.
  - assert (m = 0)%nat by lia. subst. constructor.
  - apply al_skip. auto.
  - destruct m; [apply al_0|]. apply al_take; auto. apply IH. lia.
Qed.
(** one of the two: the elements that satisfy [P] and the others *)
Lemma al_split {A} (P Q : A -> Prop) : forall l n, (forall x, List.In x l -> P x \/ Q x) -> (n <= length l)%nat -> ~ at_least P (length l - n) l -> at_least Q (S n) l.
Proof.
  induction l as [|x l IH]; intros n H L X.
  - exfalso. apply X. cbn. constructor.
  - destruct (H x (or_introl eq_refl)) as [Px|Qx].
    + apply al_skip. cbn in L. destruct (Nat.eq_dec n (S (length l))) as [->|N]; [exfalso; apply X; cbn [length]; rewrite Nat.sub_diag; apply al_0|].
      apply IH; [intros; apply H; right; auto|lia|]. intros Y. apply X. replace (length (x :: l) - n)%nat with (S (length l - n)) by (cbn [length]; lia). apply al_take; auto.
    + destruct n as [|n]; [apply al_take; auto using al_0|]. apply al_take; auto.
      apply IH; [intros; apply H; right; auto|cbn in L; lia|]. intros Y. apply X. cbn [length]. rewrite Nat.sub_succ. apply al_skip. auto.
Qed.

(** ** The sorting *)
Lemma ext_eqb_eq a b : ext_eqb a b = true <-> a = b.
Proof. destruct a, b; cbn; split; intro H; try discriminate; auto. - unfold Reqb in H. destruct (Req_EM_T r r0); [congruence|discriminate]. - injection H as ->. unfold Reqb. destruct (Req_EM_T r0 r0); congruence. Qed.
Definition ext_le (a b : ext) : Prop := match a, b with MInf, _ => True | _, PInf => True | Fin x, Fin y => x <= y | _, _ => False end.
Lemma ext_ltb_le a b : ext_ltb a b = false <-> ext_le b a.
Proof. destruct a, b; cbn; split; intro H; try discriminate; try tauto; auto. - apply Rltb_false in H; auto. - apply Rltb_false; auto. Qed.
Lemma ext_le_trans a b c : ext_le a b -> ext_le b c -> ext_le a c.
Proof. destruct a, b, c; cbn; try tauto; lra. Qed.
Lemma ext_le_refl a : ext_le a a. Proof. destruct a; cbn; auto; lra. Qed.
Lemma ext_le_antisym a b : ext_le a b -> ext_le b a -> a = b.
Proof. destruct a, b; cbn; try tauto. intros; f_equal; lra. Qed.
Lemma ext_le_total a b : ext_le a b \/ ext_le b a.
Proof. destruct a, b; cbn; try tauto. lra. Qed.
(** the order on events *)
Definition ev_le (e f : event) : Prop := paircomp f e = false.
Lemma ev_le_iff e f : ev_le e f <-> ext_le (fst e) (fst f) /\ (fst e = fst f -> snd e = true -> snd f = true).
Proof.
  unfold ev_le, paircomp. destruct e as [v s], f as [w t]; cbn [fst snd]. rewrite orb_false_iff. rewrite ext_ltb_le.
  split; intros [H1 H2]; split; auto.
  - intros -> ->. destruct t; auto. assert (X : ext_eqb w w = true) by (apply ext_eqb_eq; auto). rewrite X in H2. discriminate.
  - destruct (ext_eqb w v) eqn:X; [|auto]. apply ext_eqb_eq in X. subst. destruct t, s; cbn; auto. discriminate H2; auto.
Qed.
Lemma ev_le_trans e f g : ev_le e f -> ev_le f g -> ev_le e g.
Proof.
  rewrite !ev_le_iff. intros [A B] [C D]. split; [eapply ext_le_trans; eauto|]. intros E S.
  assert (fst e = fst f) by (apply ext_le_antisym; auto; rewrite E; auto). apply D; [congruence|auto].
Qed.
Lemma ev_le_total e f : ev_le e f \/ ev_le f e.
Proof.
  rewrite !ev_le_iff. destruct (ext_le_total (fst e) (fst f)) as [H|H].
  - destruct (ext_eqb (fst e) (fst f)) eqn:X; [apply ext_eqb_eq in X|].
    + rewrite X. destruct (snd e), (snd f); [left|right|left|left]; split; auto using ext_le_refl; congruence.
    + left. split; auto. intros E. apply ext_eqb_eq in E. congruence.
  - destruct (ext_eqb (fst e) (fst f)) eqn:X; [apply ext_eqb_eq in X|].
    + rewrite X. destruct (snd e), (snd f); [left|right|left|left]; split; auto using ext_le_refl; congruence.
    + right. split; auto. intros E. symmetry in E. apply ext_eqb_eq in E. congruence.
Qed.
Lemma ev_insert_perm e l : Permutation (ev_insert e l) (e :: l).
Proof. induction l as [|f l IH]; cbn; auto. destruct (paircomp f e); auto. rewrite IH. constructor. Qed.
Lemma ev_sort_perm l : Permutation (ev_sort l) l.
Proof. induction l as [|e l IH]; cbn; auto. rewrite ev_insert_perm. auto. Qed.
Lemma ev_insert_sorted e l : StronglySorted ev_le l -> StronglySorted ev_le (ev_insert e l).
Proof.
  induction l as [|f l IH]; intros H; cbn; [repeat constructor|]. inversion H as [|? ? S F]; subst.
  destruct (paircomp f e) eqn:X.
  - constructor; auto. apply (Permutation_Forall (Permutation_sym (ev_insert_perm e l))). constructor; auto.
    destruct (ev_le_total f e) as [Y|Y]; auto. unfold ev_le in Y. congruence.
  - constructor; auto. constructor; auto. eapply Forall_impl; [|exact F]. cbn. intros g Hg. eapply ev_le_trans; eauto.
Qed.
Lemma ev_sort_sorted l : StronglySorted ev_le (ev_sort l).
Proof. induction l; cbn; [constructor|apply ev_insert_sorted; auto]. Qed.
Lemma SS_app {A} (Rl : A -> A -> Prop) l m : StronglySorted Rl l -> StronglySorted Rl m -> (forall x y, List.In x l -> List.In y m -> Rl x y) -> StronglySorted Rl (l ++ m).
Proof.
  induction l as [|a l IH]; intros H1 H2 H; cbn; auto. inversion H1; subst. constructor.
  - apply IH; auto. intros; apply H; auto; right; auto.
  - apply Forall_app. split; auto. apply Forall_forall. intros; apply H; auto; left; auto.
Qed.
Lemma SS_rev {A} (Rl : A -> A -> Prop) l : StronglySorted Rl l -> StronglySorted (fun a b => Rl b a) (rev l).
Proof.
  induction l as [|a l IH]; intros H; cbn; [constructor|]. inversion H as [|? ? S F]; subst. apply SS_app; auto; [repeat constructor|].
  intros x y Hx [<-|[]]. apply in_rev in Hx. rewrite Forall_forall in F. auto.
Qed.

(** ** The counter *)
Section Scan.
  Variable up : bool.
  Variable Rl : event -> event -> Prop.
  (** [bef e v]: the event [e] is met not later than a bound of side [up] with value [v] *)
  Variable bef : event -> ext -> bool.
  Hypothesis bef_down : forall e f v, Rl e f -> bef f v = true -> bef e v = true.
  Hypothesis bef_self : forall e f, Rl e f -> snd f = up -> bef e (fst f) = true.
  Hypothesis bef_refl : forall e, snd e = up -> bef e (fst e) = true.
  Hypothesis bef_side : forall e f, Rl e f -> snd e = up -> bef f (fst e) = true -> snd f = up.
  Definition sgn (e : event) : Z := if Bool.eqb (snd e) up then 1%Z else (-1)%Z.
  Definition total (l : list event) : Z := fold_right (fun e z => (sgn e + z)%Z) 0%Z l.
  Definition before (v : ext) (l : list event) : Z := total (filter (fun e => bef e v) l).
  Lemma tot_cons e l : total (e :: l) = (sgn e + total l)%Z. Proof. reflexivity. Qed.
  Lemma total_app l m : total (l ++ m) = (total l + total m)%Z.
  Proof. induction l as [|e l IH]; cbn [app]; auto. rewrite !tot_cons, IH. lia. Qed.
  Lemma total_perm l m : Permutation l m -> total l = total m.
  Proof. intros H. induction H; rewrite ?tot_cons; lia. Qed.
  Lemma before_perm v l m : Permutation l m -> before v l = before v m.
  Proof.
    intros H. unfold before. induction H; cbn [filter]; auto.
    - destruct (bef x v); rewrite ?tot_cons; auto. f_equal. auto.
    - destruct (bef x v), (bef y v); rewrite ?tot_cons; auto. lia.
    - congruence.
  Qed.
  Lemma scan_cons q c v s l : scan up q c ((v, s) :: l) = if (c + sgn (v, s) =? q)%Z then Some v else scan up q (c + sgn (v, s))%Z l.
  Proof. cbn [scan]. unfold sgn. cbn [snd]. destruct (Bool.eqb s up); auto. Qed.
  Lemma sgn_pm e : sgn e = 1%Z /\ snd e = up \/ sgn e = (-1)%Z /\ snd e <> up.
  Proof. unfold sgn. destruct (Bool.eqb (snd e) up) eqn:E; [left; split; auto; apply eqb_prop; auto|right; split; auto; apply eqb_false_iff; auto]. Qed.
  Lemma scan_some q : forall l c r, (c < q)%Z -> scan up q c l = Some r -> exists A B e, l = A ++ e :: B /\ fst e = r /\ snd e = up /\ (c + total A + 1 = q)%Z.
  Proof.
    induction l as [|[v s] l IH]; intros c r L H; [discriminate|]. rewrite scan_cons in H. destruct (c + sgn (v, s) =? q)%Z eqn:E.
    - apply Z.eqb_eq in E. injection H as <-. exists [], l, (v, s). destruct (sgn_pm (v, s)) as [[X Y]|[X Y]]; [|lia]. change (total []) with 0%Z. repeat split; auto. lia.
    - apply Z.eqb_neq in E. apply IH in H; [|destruct (sgn_pm (v, s)) as [[X Y]|[X Y]]; lia].
      destruct H as (A & B & e & -> & H1 & H2 & H3). exists ((v, s) :: A), B, e. repeat split; auto. rewrite tot_cons. lia.
  Qed.
  Lemma scan_reach q : forall A B c, (c < q)%Z -> (q <= c + total A)%Z -> exists r e, scan up q c (A ++ B) = Some r /\ List.In e A /\ fst e = r /\ snd e = up.
  Proof.
    induction A as [|[v s] A IH]; intros B c L H; [change (total []) with 0%Z in H; lia|]. cbn [app]. rewrite scan_cons. destruct (c + sgn (v, s) =? q)%Z eqn:E.
    - apply Z.eqb_eq in E. exists v, (v, s). destruct (sgn_pm (v, s)) as [[X Y]|[X Y]]; [|lia]. repeat split; auto. left; auto.
    - apply Z.eqb_neq in E. destruct (IH B (c + sgn (v, s))%Z) as (r & e & H1 & H2 & H3 & H4).
      + destruct (sgn_pm (v, s)) as [[X Y]|[X Y]]; lia.
      + rewrite tot_cons in H. lia.
      + exists r, e. repeat split; auto. right; auto.
  Qed.
  Lemma sorted_split v l : StronglySorted Rl l -> exists A B, l = A ++ B /\ filter (fun e => bef e v) l = A.
  Proof.
    induction l as [|e l IH]; intros H; [exists [], []; auto|]. inversion H as [|? ? S F]; subst. cbn. destruct (bef e v) eqn:X.
    - destruct (IH S) as (A & B & E & F'). exists (e :: A), B. cbn. split; congruence.
    - exists [], (e :: l). split; auto. clear IH H S. induction F as [|f l Hf F IH]; cbn; auto.
      destruct (bef f v) eqn:Y; [|auto]. rewrite (bef_down _ _ _ Hf Y) in X. discriminate.
  Qed.
  (** when at least q intervals are open at v, the scan stops not later than v *)
  Lemma scan_ge q l v : (0 < q)%Z -> StronglySorted Rl l -> (q <= before v l)%Z -> exists r, scan up q 0 l = Some r /\ bef (r, up) v = true.
  Proof.
    intros Q S H. destruct (sorted_split v l S) as (A & B & E & F). unfold before in H. rewrite F in H.
    destruct (scan_reach q A B 0%Z) as (r & e & H1 & H2 & H3 & H4); try lia. exists r. rewrite E. split; auto.
    rewrite <- F in H2. apply filter_In in H2. destruct H2 as [_ H2]. destruct e; cbn in *; subst; auto.
  Qed.
  (** where the scan stops, at least q intervals are open *)
  Lemma scan_le q l r : (0 < q)%Z -> StronglySorted Rl l -> scan up q 0 l = Some r -> (q <= before r l)%Z /\ List.In (r, up) l.
  Proof.
    intros Q S H. apply scan_some in H; [|auto]. destruct H as (A & B & e & -> & H1 & H2 & H3).
    split; [|apply in_or_app; right; left; destruct e; cbn in *; subst; auto].
    unfold before. rewrite filter_app, total_app. cbn [filter]. subst r. rewrite (bef_refl e H2).
    assert (SA : filter (fun x => bef x (fst e)) A = A).
    { clear H3. induction A as [|a A IH]; cbn; auto. inversion S as [|? ? S' F]; subst. rewrite Forall_forall in F.
      rewrite (bef_self a e); auto; [f_equal; auto|]. apply F. apply in_or_app. right; left; auto. }
    rewrite SA. assert (SB : (0 <= total (filter (fun x => bef x (fst e)) B))%Z).
    { clear SA H3. assert (F : Forall (Rl e) B). { induction A; cbn in S; inversion S; subst; auto. }
      clear S A. induction F as [|f B Hf F IH]; cbn [filter]; [change (total []) with 0%Z; lia|]. destruct (bef f (fst e)) eqn:X; [|auto]. rewrite tot_cons.
      apply (bef_side e f Hf H2) in X. unfold sgn. rewrite X. rewrite eqb_reflx. lia. }
    assert (X : total (e :: filter (fun x => bef x (fst e)) B) = (1 + total (filter (fun x => bef x (fst e)) B))%Z).
    { rewrite tot_cons. unfold sgn at 1. rewrite H2, eqb_reflx. auto. }
    rewrite X. lia.
  Qed.
End Scan.

(** ** The two orders *)
Definition befL (e : event) (v : ext) : bool := negb (paircomp (v, false) e).
Definition befR (e : event) (v : ext) : bool := negb (paircomp e (v, true)).
Lemma befL_iff e v : befL e v = true <-> ev_le e (v, false).
Proof. unfold befL, ev_le. destruct (paircomp _ _); cbn; split; congruence. Qed.
Lemma befR_iff e v : befR e v = true <-> ev_le (v, true) e.
Proof. unfold befR, ev_le. destruct (paircomp _ _); cbn; split; congruence. Qed.
Lemma ev_le_refl e : ev_le e e. Proof. apply ev_le_iff. split; auto using ext_le_refl. Qed.
Ltac bef_tac := intros; rewrite ?befL_iff, ?befR_iff in *.
Lemma scanL_ge q l v : (0 < q)%Z -> StronglySorted ev_le l -> (q <= before false befL v l)%Z -> exists r, scan false q 0 l = Some r /\ ext_le r v.
Proof.
  intros Q S H. apply (scan_ge false ev_le befL) in H; auto.
  - destruct H as (r & H & X). exists r. split; auto. apply befL_iff, ev_le_iff in X. tauto.
  - bef_tac. eapply ev_le_trans; eauto.
Qed.
Lemma scanR_ge q l v : (0 < q)%Z -> StronglySorted ev_le l -> (q <= before true befR v (rev l))%Z -> exists r, scan true q 0 (rev l) = Some r /\ ext_le v r.
Proof.
  intros Q S H. apply (scan_ge true (fun a b => ev_le b a) befR) in H; auto.
  - destruct H as (r & H & X). exists r. split; auto. apply befR_iff, ev_le_iff in X. tauto.
  - bef_tac. eapply ev_le_trans; eauto.
  - apply SS_rev; auto.
Qed.
Lemma scanL_le q l r : (0 < q)%Z -> StronglySorted ev_le l -> scan false q 0 l = Some r -> (q <= before false befL r l)%Z /\ List.In (r, false) l.
Proof.
  intros Q S H. apply (scan_le false ev_le befL) in H; auto; bef_tac.
  - destruct f as [w t]; cbn in *; subst; auto.
  - destruct e as [w t]; cbn in *; subst. apply ev_le_refl.
  - apply ev_le_iff in H0. apply ev_le_iff in H2. destruct e, f; cbn in *; subst. destruct H0 as [A _], H2 as [B C].
    destruct b0; auto. rewrite C; auto. apply ext_le_antisym; auto.
Qed.
Lemma scanR_le q l r : (0 < q)%Z -> StronglySorted ev_le l -> scan true q 0 (rev l) = Some r -> (q <= before true befR r (rev l))%Z /\ List.In (r, true) (rev l).
Proof.
  intros Q S H. apply (scan_le true (fun a b => ev_le b a) befR) in H; auto; bef_tac.
  - destruct f as [w t]; cbn in *; subst; auto.
  - destruct e as [w t]; cbn in *; subst. apply ev_le_refl.
  - apply ev_le_iff in H0. apply ev_le_iff in H2. destruct e, f; cbn in *; subst. destruct H0 as [A _], H2 as [B C].
    apply C; auto. apply ext_le_antisym; auto.
  - apply SS_rev; auto.
Qed.

(** ** The counter at v is the number of intervals that contain v *)
Definition okI (i : itv) : Prop := i <> Emp /\ wf i.
Definition inE (v : ext) (i : itv) : bool := negb (ext_ltb v (ext_lb i)) && negb (ext_ltb (ext_ub i) v).
Lemma total_cons up e l : total up (e :: l) = (sgn up e + total up l)%Z. Proof. reflexivity. Qed.
Lemma okI_le i : okI i -> ext_le (ext_lb i) (ext_ub i).
Proof. intros [N W]. destruct i as [|[a|] [b|]]; cbn in *; auto; congruence. Qed.
Lemma inE_iff v i : inE v i = true <-> ext_le (ext_lb i) v /\ ext_le v (ext_ub i).
Proof. unfold inE. rewrite andb_true_iff, !negb_true_iff, !ext_ltb_le. tauto. Qed.
Lemma evLl v w : befL (w, false) v = true <-> ext_le w v.
Proof. rewrite befL_iff, ev_le_iff; cbn. intuition discriminate. Qed.
Lemma evLr v w : befL (w, true) v = true <-> ~ ext_le v w.
Proof.
  rewrite befL_iff, ev_le_iff; cbn. split.
  - intros [A B] C. assert (w = v) by (apply ext_le_antisym; auto). discriminate (B H eq_refl).
  - intros H. split; [destruct (ext_le_total v w); tauto|]. intros -> _. destruct H. apply ext_le_refl.
Qed.
Lemma evRr v w : befR (w, true) v = true <-> ext_le v w.
Proof. rewrite befR_iff, ev_le_iff; cbn. tauto. Qed.
Lemma evRl v w : befR (w, false) v = true <-> ~ ext_le w v.
Proof.
  rewrite befR_iff, ev_le_iff; cbn. split.
  - intros [A B] C. assert (v = w) by (apply ext_le_antisym; auto). discriminate (B H eq_refl).
  - intros H. split; [destruct (ext_le_total v w); tauto|]. intros -> _. destruct H. apply ext_le_refl.
Qed.
Lemma countL v l : Forall okI l -> before false befL v (events l) = Z.of_nat (length (filter (inE v) l)).
Proof.
  intros H. unfold before. induction H as [|i l Hi H IH]; auto. cbn [events flat_map app filter]. fold (events l).
  pose proof (okI_le i Hi) as Hle. pose proof (inE_iff v i) as HI. pose proof (evLl v (ext_lb i)) as X. pose proof (evLr v (ext_ub i)) as Y.
  assert (D : inE v i = befL (ext_lb i, false) v && negb (befL (ext_ub i, true) v)).
  { destruct (befL (ext_lb i, false) v), (befL (ext_ub i, true) v), (inE v i); cbn; auto; exfalso; intuition (try discriminate). }
  rewrite D. destruct (befL (ext_lb i, false) v) eqn:E1, (befL (ext_ub i, true) v) eqn:E2; cbn [andb negb length]; rewrite ?total_cons, IH; unfold sgn; cbn [snd Bool.eqb]; try lia.
  exfalso. assert (A : ~ ext_le (ext_lb i) v) by (intros A; apply X in A; discriminate). assert (B : ~ ext_le v (ext_ub i)) by (apply Y; auto).
  destruct (ext_le_total v (ext_ub i)) as [|C]; [tauto|]. apply A. eapply ext_le_trans; eauto.
Qed.
Lemma countR v l : Forall okI l -> before true befR v (events l) = Z.of_nat (length (filter (inE v) l)).
Proof.
  intros H. unfold before. induction H as [|i l Hi H IH]; auto. cbn [events flat_map app filter]. fold (events l).
  pose proof (okI_le i Hi) as Hle. pose proof (inE_iff v i) as HI. pose proof (evRl v (ext_lb i)) as X. pose proof (evRr v (ext_ub i)) as Y.
  assert (D : inE v i = befR (ext_ub i, true) v && negb (befR (ext_lb i, false) v)).
  { destruct (befR (ext_lb i, false) v), (befR (ext_ub i, true) v), (inE v i); cbn; auto; exfalso; intuition (try discriminate). }
  rewrite D. destruct (befR (ext_lb i, false) v) eqn:E1, (befR (ext_ub i, true) v) eqn:E2; cbn [andb negb length]; rewrite ?total_cons, IH; unfold sgn; cbn [snd Bool.eqb]; try lia.
  exfalso. assert (A : ~ ext_le v (ext_ub i)) by (intros A; apply Y in A; discriminate). assert (B : ~ ext_le (ext_lb i) v) by (apply X; auto).
  destruct (ext_le_total (ext_lb i) v) as [|C]; [tauto|]. apply A. eapply ext_le_trans; eauto.
Qed.
Lemma inE_In v i : wf i -> inE (Fin v) i = true <-> In v i.
Proof. intros W. rewrite inE_iff. destruct i as [|[a|] [b|]]; cbn; tauto. Qed.

(** ** One dimension *)
Lemma filter_mono {A} (f g : A -> bool) l : (forall x, List.In x l -> f x = true -> g x = true) -> (length (filter f l) <= length (filter g l))%nat.
Proof.
  induction l as [|x l IH]; intros H; cbn; auto. assert (IH' : (length (filter f l) <= length (filter g l))%nat) by (apply IH; intros; apply H; auto; right; auto).
  destruct (f x) eqn:E; [rewrite (H x (or_introl eq_refl) E); cbn; lia|]. destruct (g x); cbn; lia.
Qed.
Lemma al_inE v n l : Forall okI l -> at_least (In v) n l <-> (n <= length (filter (inE (Fin v)) l))%nat.
Proof.
  intros H. rewrite (al_count (In v) (fun i => contains i v) (fun i => contains_true i v)).
  assert (E : filter (fun i => contains i v) l = filter (inE (Fin v)) l); [|rewrite E; tauto].
  apply filter_ext_in. intros i Hi. rewrite Forall_forall in H. destruct (H i Hi) as [_ W].
  pose proof (inE_In v i W). pose proof (contains_true i v). destruct (contains i v), (inE (Fin v) i); intuition congruence.
Qed.
Lemma in_events_l r l : List.In (r, false) (events l) -> exists i, List.In i l /\ r = ext_lb i.
Proof. intros H. apply in_flat_map in H. destruct H as (i & Hi & [X|[X|[]]]); exists i; split; auto; congruence. Qed.
Lemma in_events_r r l : List.In (r, true) (events l) -> exists i, List.In i l /\ r = ext_ub i.
Proof. intros H. apply in_flat_map in H. destruct H as (i & Hi & [X|[X|[]]]); exists i; split; auto; congruence. Qed.
Definition low (x : R) (l : list itv) : R := fold_right (fun i m => match i with Itv _ (Some b) => Rmin b m | _ => m end) x l.
Definition high (x : R) (l : list itv) : R := fold_right (fun i m => match i with Itv (Some a) _ => Rmax a m | _ => m end) x l.
Lemma low_le x l : low x l <= x.
Proof. induction l as [|i l IH]; cbn; [lra|]. destruct i as [|? [b|]]; auto. apply Rle_trans with (low x l); [apply Rmin_r|auto]. Qed.
Lemma high_ge x l : x <= high x l.
Proof. induction l as [|i l IH]; cbn; [lra|]. destruct i as [|[a|] ?]; auto. apply Rle_trans with (high x l); [auto|apply Rmax_r]. Qed.
Lemma low_in x l i : List.In i l -> inE MInf i = true -> inE (Fin (low x l)) i = true.
Proof.
  intros Hi H. rewrite inE_iff in *. destruct H as [H _]. destruct i as [|[a|] h]; cbn in H; try tauto. cbn. split; auto. destruct h as [b|]; auto.
  induction l as [|j l IH]; [destruct Hi|]. destruct Hi as [->|Hi].
  - cbn. apply Rmin_l.
  - specialize (IH Hi). destruct j as [|? [c|]]; cbn; auto. pose proof (Rmin_r c (low x l)). unfold low in *. lra.
Qed.
Lemma high_in x l i : List.In i l -> inE PInf i = true -> inE (Fin (high x l)) i = true.
Proof.
  intros Hi H. rewrite inE_iff in *. destruct H as [_ H]. destruct i as [|a [h|]]; cbn in H; try tauto. cbn. split; auto. destruct a as [b|]; auto.
  induction l as [|j l IH]; [destruct Hi|]. destruct Hi as [->|Hi].
  - cbn. apply Rmax_l.
  - specialize (IH Hi). destruct j as [|[c|] ?]; cbn; auto. pose proof (Rmax_r c (high x l)). unfold high in *. cbn in IH. lra.
Qed.
(** [qinter_dim] gives the smallest interval that contains each value that is in at least q intervals *)
Lemma qdim_spec q l : (0 < q)%Z -> Forall okI l ->
  match qinter_dim q l with
  | QUndef => False
  | QEmpty => forall v, ~ at_least (In v) (Z.to_nat q) l
  | QItv i => i <> Emp /\ wf i /\ (forall v, at_least (In v) (Z.to_nat q) l -> In v i) /\
      (forall J, (forall v, at_least (In v) (Z.to_nat q) l -> In v J) -> sub i J)
  end.
Proof.
  intros Q O. unfold qinter_dim. pose proof (ev_sort_sorted (events l)) as S. pose proof (ev_sort_perm (events l)) as P.
  set (x := ev_sort (events l)) in *.
  assert (CL : forall v, before false befL v x = Z.of_nat (length (filter (inE v) l))).
  { intros v. rewrite (before_perm false befL v _ _ P). apply countL; auto. }
  assert (CR : forall v, before true befR v (rev x) = Z.of_nat (length (filter (inE v) l))).
  { intros v. rewrite (before_perm true befR v _ _ (Permutation_trans (Permutation_sym (Permutation_rev x)) P)). apply countR; auto. }
  assert (GE : forall v, at_least (In v) (Z.to_nat q) l -> (q <= Z.of_nat (length (filter (inE (Fin v)) l)))%Z).
  { intros v H. apply al_inE in H; auto. lia. }
  destruct (scan false q 0 x) as [r|] eqn:E1.
  2:{ cbn. intros v H. apply GE in H. rewrite <- CL in H. apply scanL_ge in H; auto. destruct H as (r & H & _). congruence. }
  pose proof (scanL_le q x r Q S E1) as [H1 I1]. apply (Permutation_in _ P) in I1. apply in_events_l in I1. destruct I1 as (i1 & I1 & R1).
  rewrite Forall_forall in O. pose proof (O i1 I1) as [N1 W1]. rewrite CL in H1. destruct (ext_eqb r PInf) eqn:EP.
  { apply ext_eqb_eq in EP. subst r. destruct i1 as [|[a|] ?]; cbn in EP; congruence. }
  assert (NP : r <> PInf) by (intros ->; discriminate EP).
  destruct (scanR_ge q x r Q S) as (r2 & E2 & L2); [rewrite CR; auto|]. rewrite E2.
  pose proof (scanR_le q x r2 Q S E2) as [H2 I2]. rewrite CR in H2. apply in_rev in I2. apply (Permutation_in _ P) in I2. apply in_events_r in I2. destruct I2 as (i2 & I2 & R2).
  pose proof (O i2 I2) as [N2 W2]. assert (NM : r2 <> MInf) by (intros ->; destruct i2 as [|? [b|]]; cbn in R2; congruence).
  assert (LO : forall y, ext_le r (Fin y) -> exists v, v <= y /\ at_least (In v) (Z.to_nat q) l).
  { intros y Hy. destruct r as [|a|]; [|exists a; split; auto; apply al_inE; [apply Forall_forall; auto|lia]|congruence].
    exists (low y l). split; [apply low_le|]. apply al_inE; [apply Forall_forall; auto|].
    apply Nat.le_trans with (length (filter (inE MInf) l)); [lia|]. apply filter_mono. intros; apply low_in; auto. }
  assert (HI : forall y, ext_le (Fin y) r2 -> exists v, y <= v /\ at_least (In v) (Z.to_nat q) l).
  { intros y Hy. destruct r2 as [|b|]; [congruence|exists b; split; auto; apply al_inE; [apply Forall_forall; auto|lia]|].
    exists (high y l). split; [apply high_ge|]. apply al_inE; [apply Forall_forall; auto|].
    apply Nat.le_trans with (length (filter (inE PInf) l)); [lia|]. apply filter_mono. intros; apply high_in; auto. }
  assert (IN : forall y, In y (ext_itv r r2) <-> ext_le r (Fin y) /\ ext_le (Fin y) r2).
  { intros y. destruct r as [|a|], r2 as [|b|]; try congruence; cbn; try tauto.
    destruct (Rle_dec a b); cbn; [tauto|cbn in L2; lra]. }
  refine (conj _ (conj _ (conj _ _))).
  - destruct r as [|a|], r2 as [|b|]; try congruence; cbn; try congruence. destruct (Rle_dec a b); cbn in *; [congruence|lra].
  - destruct r as [|a|], r2 as [|b|]; try congruence; cbn; auto. destruct (Rle_dec a b); cbn in *; auto.
  - intros v H. apply IN. apply GE in H. split.
    + rewrite <- CL in H. apply scanL_ge in H; auto. destruct H as (r' & H & L). congruence.
    + rewrite <- CR in H. apply scanR_ge in H; auto. destruct H as (r' & H & L). congruence.
  - intros J HJ y Hy. apply IN in Hy. destruct Hy as [Y1 Y2]. destruct (LO y Y1) as (v1 & V1 & A1). destruct (HI y Y2) as (v2 & V2 & A2).
    apply In_convex with v1 v2; auto.
Qed.

(** ** Boxes *)
(** the boxes that IBEX builds: no component is empty, or the first one is *)
Definition boxes_ok (n : nat) (bs : list box) : Prop := Forall (fun b => length b = n /\ Forall wf b /\ normal b) bs.
Lemma inb_nth p b k : inb p b -> (k < length b)%nat -> In (nth k p 0) (nth k b Emp).
Proof. intros H. revert k. induction H; intros k L; cbn in L; [lia|]. destruct k; cbn; auto. apply IHForall2. lia. Qed.
Lemma nth_inb : forall p b, length p = length b -> (forall k, (k < length b)%nat -> In (nth k p 0) (nth k b Emp)) -> inb p b.
Proof.
  induction p as [|v p IH]; intros [|i b] L H; cbn in L; try discriminate; constructor.
  - apply (H 0%nat). cbn. lia.
  - apply IH; [lia|]. intros k Hk. apply (H (S k)). cbn. lia.
Qed.
Lemma kept_ok n bs k : boxes_ok n bs -> (k < n)%nat -> Forall okI (map (fun b => nth k b Emp) (filter (fun b => negb (b_is_empty b)) bs)).
Proof.
  intros H L. apply Forall_map, Forall_forall. intros b Hb. apply filter_In in Hb. destruct Hb as [Hb E]. unfold boxes_ok in H. rewrite Forall_forall in H.
  destruct (H b Hb) as (A & B & C). apply negb_true_iff in E. split.
  - intros X. apply (C E). rewrite <- X. apply nth_In. lia.
  - rewrite Forall_forall in B. apply B, nth_In. lia.
Qed.
(** what the loop on the dimensions computes *)
Lemma qdims_spec q boxes : forall dims, (forall k, List.In k dims -> match qinter_dim q (map (fun b => nth k b Emp) boxes) with QUndef => False | _ => True end) ->
  match qinter_dims q boxes dims with
  | None => False
  | Some None => exists k, List.In k dims /\ qinter_dim q (map (fun b => nth k b Emp) boxes) = QEmpty
  | Some (Some r) => length r = length dims /\
      forall j, (j < length dims)%nat -> qinter_dim q (map (fun b => nth (nth j dims 0%nat) b Emp) boxes) = QItv (nth j r Emp)
  end.
Proof.
  induction dims as [|k dims IH]; intros H; cbn [qinter_dims].
  - split; auto. intros j L; cbn in L; lia.
  - pose proof (H k (or_introl eq_refl)) as Hk. destruct (qinter_dim q (map (fun b => nth k b Emp) boxes)) as [|i|] eqn:E; [|clear Hk|tauto].
    + exists k. split; auto. left; auto.
    + assert (IH' := IH (fun j Hj => H j (or_intror Hj))). destruct (qinter_dims q boxes dims) as [[r|]|]; [|destruct IH' as (j & Hj & X); exists j; split; auto; right; auto|auto].
      destruct IH' as [L X]. split; [cbn; congruence|]. intros [|j] Lj; cbn [nth]; auto. apply X. cbn in Lj. lia.
Qed.

(** A point that is in at least [q] boxes is in the result.  The function is defined when 0 < q and there is a box. *)
Theorem C44_keeps : forall n bs q, (0 < q)%Z -> bs <> [] -> boxes_ok n bs ->
  exists res, qinter_projf bs q = Some res /\ length res = n /\ Forall wf res /\ normal res /\
    forall p, length p = n -> at_least (inb p) (Z.to_nat q) bs -> inb p res.
Proof.
  intros n bs q Q N O. unfold qinter_projf. destruct (q <=? 0)%Z eqn:E; [apply Z.leb_le in E; lia|]. destruct bs as [|b0 bs]; [congruence|]. clear N.
  pose proof O as O'. inversion O' as [|? ? [L0 _] _]; subst x l. rewrite L0. set (l := b0 :: bs) in *. clearbody l.
  assert (EMP : length (repeat Emp n) = n /\ Forall wf (repeat Emp n) /\ normal (repeat Emp n)).
  { refine (conj (repeat_length _ _) (conj _ _)).
    - clear. induction n; cbn; constructor; auto; exact I.
    - clear. intros H. destruct n; cbn in *; [auto|discriminate]. }
  assert (F : forall p, at_least (inb p) (Z.to_nat q) l -> at_least (inb p) (Z.to_nat q) (filter (fun b => negb (b_is_empty b)) l)).
  { intros p. apply al_filter. intros x Hx. rewrite (inb_empty _ _ Hx). auto. }
  pose proof (fun k => kept_ok n l k O) as K. set (boxes := filter (fun b => negb (b_is_empty b)) l) in *.
  assert (LB : forall b, List.In b boxes -> length b = n).
  { intros b Hb. apply filter_In in Hb. unfold boxes_ok in O. rewrite Forall_forall in O. apply O. tauto. }
  destruct boxes as [|b1 bx] eqn:EB.
  { exists (repeat Emp n). refine (conj eq_refl (conj (proj1 EMP) (conj (proj1 (proj2 EMP)) (conj (proj2 (proj2 EMP)) _)))).
    intros p _ H. apply F in H. inversion H. lia. }
  rewrite <- EB in *. pose proof (qdims_spec q boxes (seq 0 n)) as D.
  assert (PR : forall k, (k < n)%nat -> match qinter_dim q (map (fun b => nth k b Emp) boxes) with
      | QUndef => False
      | QEmpty => forall p, length p = n -> ~ at_least (inb p) (Z.to_nat q) l
      | QItv i => i <> Emp /\ wf i /\ forall p, length p = n -> at_least (inb p) (Z.to_nat q) l -> In (nth k p 0) i end).
  { intros k Hk. pose proof (qdim_spec q _ Q (K k Hk)) as X.
    assert (AX : forall p, length p = n -> at_least (inb p) (Z.to_nat q) l -> at_least (In (nth k p 0)) (Z.to_nat q) (map (fun b => nth k b Emp) boxes)).
    { intros p Lp H. apply F in H. apply al_axis. eapply al_impl; [|exact H]. cbn. intros b Hb Hp. apply inb_nth; auto. rewrite (LB b Hb). auto. }
    destruct (qinter_dim q _) as [|i|]; auto.
    - intros p Lp H. apply (X (nth k p 0)). auto.
    - destruct X as (A & B & C & _). refine (conj A (conj B _)). intros p Lp H. apply C. auto. }
  assert (D' := D ltac:(intros k Hk; apply in_seq in Hk; specialize (PR k ltac:(lia)); destruct (qinter_dim q _); tauto)). clear D.
  destruct (qinter_dims q boxes (seq 0 n)) as [[r|]|]; [| |destruct D'].
  - destruct D' as [LR X]. rewrite seq_length in LR, X.
    assert (Y : forall j, (j < n)%nat -> nth j r Emp <> Emp /\ wf (nth j r Emp) /\ forall p, length p = n -> at_least (inb p) (Z.to_nat q) l -> In (nth j p 0) (nth j r Emp)).
    { intros j Hj. specialize (X j Hj). rewrite seq_nth in X by auto. cbn in X. specialize (PR j Hj). rewrite X in PR. auto. }
    exists r. refine (conj eq_refl (conj LR (conj _ (conj _ _)))).
    + apply Forall_forall. intros i Hi. apply (In_nth _ _ Emp) in Hi. destruct Hi as (j & Lj & <-). apply Y. lia.
    + intros _ Hi. apply (In_nth _ _ Emp) in Hi. destruct Hi as (j & Lj & Ej). destruct (Y j ltac:(lia)) as [A _]. auto.
    + intros p Lp H. apply nth_inb; [lia|]. intros j Lj. apply Y; auto. lia.
  - exists (repeat Emp n). refine (conj eq_refl (conj (proj1 EMP) (conj (proj1 (proj2 EMP)) (conj (proj2 (proj2 EMP)) _)))).
    intros p Lp H. destruct D' as (k & Hk & X). apply in_seq in Hk. specialize (PR k ltac:(lia)). rewrite X in PR. destruct (PR p Lp H).
Qed.

(** the value [v] of the axis [k] belongs to the projection of the box *)
Definition on_axis (k : nat) (v : R) (b : box) : Prop := b_is_empty b = false /\ In v (nth k b Emp).
Lemma on_axis_al k v n bs : at_least (on_axis k v) n bs <-> at_least (fun b => In v (nth k b Emp)) n (filter (fun b => negb (b_is_empty b)) bs).
Proof.
  rewrite (al_filter (on_axis k v) (fun b => negb (b_is_empty b))) by (intros b [H _]; rewrite H; auto).
  split; apply al_impl; intros b Hb; apply filter_In in Hb; destruct Hb as [_ Hb]; apply negb_true_iff in Hb; [intros [_ H]; auto|split; auto].
Qed.
(** Per axis, the result is the smallest interval that contains each value that is in at least [q] boxes; the result
    is empty exactly when some axis has no such value. *)
Theorem C44_least : forall n bs q res, (0 < n)%nat -> boxes_ok n bs -> qinter_projf bs q = Some res ->
  (b_is_empty res = false -> forall k, (k < n)%nat -> 
     (forall v, at_least (on_axis k v) (Z.to_nat q) bs -> In v (nth k res Emp)) /\
     (forall J, (forall v, at_least (on_axis k v) (Z.to_nat q) bs -> In v J) -> sub (nth k res Emp) J)) /\
  (b_is_empty res = true -> exists k, (k < n)%nat /\ forall v, ~ at_least (on_axis k v) (Z.to_nat q) bs).
Proof.
  intros n bs q res N0 O H. unfold qinter_projf in H. destruct (q <=? 0)%Z eqn:E; [discriminate|]. apply Z.leb_gt in E. destruct bs as [|b0 bs]; [discriminate|].
  pose proof O as O'. inversion O' as [|? ? [L0 _] _]; subst x l. rewrite L0 in H. set (l := b0 :: bs) in *. clearbody l.
  pose proof (fun k => kept_ok n l k O) as K. pose proof (fun v k => on_axis_al k v (Z.to_nat q) l) as AX. set (boxes := filter (fun b => negb (b_is_empty b)) l) in *.
  assert (EE : b_is_empty (repeat Emp n) = true) by (destruct n; [lia|auto]).
  destruct boxes as [|b1 bx] eqn:EB.
  { injection H as <-. split; [congruence|]. intros _. exists 0%nat. split; auto. intros v X. apply AX in X. inversion X. lia. }
  rewrite <- EB in *. pose proof (qdims_spec q boxes (seq 0 n)) as D.
  assert (PR := fun k Hk => qdim_spec q _ E (K k Hk)).
  assert (D' := D ltac:(intros k Hk; apply in_seq in Hk; specialize (PR k ltac:(lia)); destruct (qinter_dim q _); tauto)). clear D.
  destruct (qinter_dims q boxes (seq 0 n)) as [[r|]|]; [| |destruct D'].
  - injection H as <-. destruct D' as [LR X]. rewrite seq_length in LR, X.
    assert (Y : forall j, (j < n)%nat -> qinter_dim q (map (fun b => nth j b Emp) boxes) = QItv (nth j r Emp)).
    { intros j Hj. specialize (X j Hj). rewrite seq_nth in X by auto. auto. }
    split.
    + intros _ k Hk. specialize (PR k Hk). rewrite (Y k Hk) in PR. destruct PR as (_ & _ & A & B). split.
      * intros v Hv. apply A. apply al_axis, AX. auto.
      * intros J HJ. apply B. intros v Hv. apply HJ. apply AX, al_axis. auto.
    + intros B. exfalso. specialize (PR 0%nat N0). rewrite (Y 0%nat N0) in PR. destruct PR as (A & _). destruct r as [|i r]; cbn in *; [lia|]. destruct i; cbn in *; congruence.
  - injection H as <-. split; [congruence|]. intros _. destruct D' as (k & Hk & X). apply in_seq in Hk. exists k. split; [lia|]. specialize (PR k ltac:(lia)). rewrite X in PR.
    intros v Hv. apply (PR v). apply al_axis, AX. auto.
Qed.

(** CtcQInterProjF keeps each point of the box that satisfies at least [q] constraints, whatever the constraints. *)
Theorem C44_ctc : forall Ps (cs : list ctc_t) q (x : box) p, (0 < q)%Z -> cs <> [] -> Forall2 ctc_ok Ps cs -> Forall wf x -> inb p x -> at_least (fun P => P p) (Z.to_nat q) Ps ->
  exists res, ctc_qinter cs q x = Some res /\ inb p res /\ length res = length x.
Proof.
  intros Ps cs q x p Q N H W Hp X. unfold ctc_qinter.
  destruct (C44_keeps (length x) (map (fun c : ctc_t => c x) cs) q Q) as (res & E & L & _ & _ & K).
  - destruct cs; cbn; congruence.
  - apply Forall_map. clear X Q N. induction H as [|P c Ps cs [A B C D] H IH]; constructor; auto. split; [|split].
    + apply (F2_len _ _ _ (B x)).
    + apply C; auto.
    + apply D.
  - exists res. refine (conj E (conj _ L)). apply K; [apply (F2_len _ _ _ Hp)|].
    clear E K Q N L. revert X. generalize (Z.to_nat q). induction H as [|P c Ps cs A H IH]; intros m X; inversion X; subst; cbn; [constructor|apply al_skip|apply al_take]; auto.
    apply (c_keeps _ _ A); auto.
Qed.
(** SepQInterProjF is a separator for "in at least n - q of the n sets", when 0 <= q < n *)
Theorem C44_sep : forall Ss (ss : list sep_t) q (xi xo : box), (0 <= q < Z.of_nat (length ss))%Z -> Forall2 sep_ok Ss ss -> length xi = length xo -> Forall wf xi -> Forall wf xo ->
  let S := fun p => at_least (fun T : list R -> Prop => T p) (length ss - Z.to_nat q) Ss in
  exists ri ro, sep_qinter ss q xi xo = Some (ri, ro) /\
    Forall2 sub ri xi /\ Forall2 sub ro xo /\
    (forall p, inb p xo -> S p -> inb p ro) /\
    (forall p, inb p xi -> ~ S p -> inb p ri).
Proof.
  intros Ss ss q xi xo Q H L Wi Wo S. unfold sep_qinter.
  assert (NE : ss <> []) by (destruct ss; cbn in *; [lia|congruence]).
  assert (B1 : boxes_ok (length xi) (map (fun s : sep_t => fst (s xi xo)) ss)).
  { apply Forall_map. clear Q S NE. induction H as [|P c Ps cs A H IH]; constructor; auto. split; [|split].
    - apply (F2_len sub). apply (s_sub _ _ A). - apply (s_wf _ _ A); auto. - apply (s_normal _ _ A). }
  assert (B2 : boxes_ok (length xo) (map (fun s : sep_t => snd (s xi xo)) ss)).
  { apply Forall_map. clear Q S NE B1. induction H as [|P c Ps cs A H IH]; constructor; auto. split; [|split].
    - apply (F2_len sub). apply (s_sub _ _ A). - apply (s_wf _ _ A); auto. - apply (s_normal _ _ A). }
  destruct (C44_keeps (length xi) (map (fun s : sep_t => fst (s xi xo)) ss) (q + 1)) as (ra & Ea & La & _ & _ & Ka); auto; [lia|destruct ss; cbn; congruence|].
  destruct (C44_keeps (length xo) (map (fun s : sep_t => snd (s xi xo)) ss) (Z.of_nat (length ss) - q)) as (rb & Eb & Lb & _ & _ & Kb); auto; [lia|destruct ss; cbn; congruence|].
  exists (b_inter xi ra), (b_inter xo rb).
  refine (conj (f_equal2 (fun u v => match u, v with Some a, Some b => Some (b_inter xi a, b_inter xo b) | _, _ => None end) Ea Eb) (conj _ (conj _ (conj _ _)))).
  - apply b_inter_sub. lia.
  - apply b_inter_sub. lia.
  - intros p Hp X. apply b_inter_in; auto. apply Kb; [apply (F2_len _ _ _ Hp)|].
    replace (Z.to_nat (Z.of_nat (length ss) - q)) with (length ss - Z.to_nat q)%nat by lia. unfold S in X. revert X. generalize (length ss - Z.to_nat q)%nat.
    clear - H Hp. induction H as [|P c Ps cs A H IH]; intros m X; inversion X; subst; cbn; [constructor|apply al_skip|apply al_take]; auto. apply (s_keep_out _ _ A); auto.
  - intros p Hp X. apply b_inter_in; auto. apply Ka; [apply (F2_len _ _ _ Hp)|].
    replace (Z.to_nat (q + 1)) with (Datatypes.S (Z.to_nat q)) by lia. pose proof (F2_len _ _ _ H) as LL.
    assert (Y : at_least (fun T : list R -> Prop => ~ T p) (Datatypes.S (Z.to_nat q)) Ss).
    { apply al_split with (P := fun T : list R -> Prop => T p); [intros; apply Classical_Prop.classic|lia|]. rewrite LL. auto. }
    revert Y. generalize (Datatypes.S (Z.to_nat q)).
    clear - H Hp. induction H as [|P c Ps cs A H IH]; intros m X; inversion X; subst; cbn; [constructor|apply al_skip|apply al_take]; auto. apply (s_keep_in _ _ A); auto.
Qed.
(** With q = n (no constraint is required), or q < 0, the assertion of qinter_projf fails. *)
Theorem C44_assert : forall ss q xi xo, (q < 0 \/ Z.of_nat (length ss) <= q)%Z -> sep_qinter ss q xi xo = None.
Proof.
  intros ss q xi xo Q. unfold sep_qinter. destruct Q as [Q|Q].
  - unfold qinter_projf at 1. replace (q + 1 <=? 0)%Z with true by (symmetry; apply Z.leb_le; lia). auto.
  - destruct (qinter_projf _ (q + 1)); auto. unfold qinter_projf. replace (Z.of_nat (length ss) - q <=? 0)%Z with true by (symmetry; apply Z.leb_le; lia). auto.
Qed.

(** ** Concrete cases *)
(** three boxes that overlap or touch each other, and an empty one *)
Definition qb : list box := [[I2 0 2; I2 0 2]; [I2 1 3; I2 1 3]; [Emp; Emp]; [I2 2 5; I2 2 5]].
Example C44_ok : boxes_ok 2 qb.
Proof.
  repeat apply Forall_cons; try apply Forall_nil; (split; [reflexivity|split; [boxt; exact I|]]); intros E H; cbn in *; try discriminate;
    destruct H as [H|[H|[]]]; discriminate.
Qed.
(** q = 2 gives [1,3]x[1,3]; q = 3 gives the point (2,2); q = 4 gives the empty box *)
Example C44_q2 : qinter_projf qb 2 = Some [I2 1 3; I2 1 3].
Proof. unfold qinter_projf, qb, qinter_dims, qinter_dim, ev_sort, ev_insert, events, paircomp, I2. cbn. reval. reflexivity. Qed.
Example C44_q3 : qinter_projf qb 3 = Some [I2 2 2; I2 2 2].
Proof. unfold qinter_projf, qb, qinter_dims, qinter_dim, ev_sort, ev_insert, events, paircomp, I2. cbn. reval. reflexivity. Qed.
Example C44_q4 : qinter_projf qb 4 = Some [Emp; Emp].
Proof. unfold qinter_projf, qb, qinter_dims, qinter_dim, ev_sort, ev_insert, events, paircomp, I2. cbn. reval. reflexivity. Qed.
(** the point (2,2) belongs to three of the boxes *)
Example C44_point : at_least (inb [2; 2]) 3 qb.
Proof. apply al_take; [boxt|]. apply al_take; [boxt|]. apply al_skip. apply al_take; [boxt|]. constructor. Qed.
(** unbounded boxes *)
Example C44_unb : qinter_projf [[NEG]; [POS]; [ALL]; [NEG]] 3 = Some [NEG].
Proof. unfold qinter_projf, qinter_dims, qinter_dim, ev_sort, ev_insert, events, paircomp, NEG, POS, ALL. cbn. reval. reflexivity. Qed.
(** two constraints, one outlier *)
Example C44_ctc_ex : exists res, ctc_qinter [cut [I2 0 2; I2 0 2]; cut [I2 1 3; I2 1 3]] 1 [I2 0 5; I2 0 5] = Some res /\ inb [0; 0] res.
Proof.
  destruct (C44_ctc [fun p => inb p [I2 0 2; I2 0 2]; fun p => inb p [I2 1 3; I2 1 3]] [cut [I2 0 2; I2 0 2]; cut [I2 1 3; I2 1 3]] 1 [I2 0 5; I2 0 5] [0; 0]) as (r & A & B & _).
  - lia.
  - discriminate.
  - constructor; [apply cut_ok|constructor; [apply cut_ok|constructor]].
  - boxt.
  - boxt.
  - apply al_take; [boxt|apply al_0].
  - eauto.
Qed.
Example C44_sep_ex : exists ri ro, sep_qinter [box_sep [I2 0 2; I2 0 2]; box_sep [I2 1 3; I2 1 3]] 1 [I2 0 5; I2 0 5] [I2 0 5; I2 0 5] = Some (ri, ro) /\
  inb [0; 0] ro /\ inb [4; 4] ri.
Proof.
  destruct (C44_sep [fun p => inb p [I2 0 2; I2 0 2]; fun p => inb p [I2 1 3; I2 1 3]] [box_sep [I2 0 2; I2 0 2]; box_sep [I2 1 3; I2 1 3]] 1 [I2 0 5; I2 0 5] [I2 0 5; I2 0 5])
    as (ri & ro & E & _ & _ & A & B).
  - cbn; lia.
  - constructor; [apply box_sep_ok|constructor; [apply box_sep_ok|constructor]].
  - reflexivity.
  - boxt.
  - boxt.
  - exists ri, ro. refine (conj E (conj _ _)).
    + apply A; [boxt|]. cbn. apply al_take; [boxt|apply al_0].
    + apply B; [boxt|]. intros X. cbn in X. inversion X as [|n x l Y|n x l Y Z]; subst.
      * inversion Y as [|n' x' l' Y'|n' x' l' Y' Z']; subst; [inversion Y'|]. inversion Y'; subst. cbn in *. lra.
      * inversion Y; subst. cbn in *. lra.
Qed.
Example C44_assert_ex : sep_qinter [box_sep [I2 0 2]] 1 [I2 0 5] [I2 0 5] = None. Proof. apply C44_assert. right. cbn. lia. Qed.

Print Assumptions C44_keeps.
Print Assumptions C44_least.
Print Assumptions C44_ctc.
Print Assumptions C44_sep.
Print Assumptions C44_assert.
