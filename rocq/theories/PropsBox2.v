(** * C70, C71, C72: the operations of codac2 on boxes *)

From Coq Require Import Reals Lra Lia Bool List Arith Classical_Prop.
Import ListNotations.
From Verif Require Import Itv Static PropsStatic Sivia PropsSivia Concrete Codac2Box.
Open Scope R_scope.

(** Points of boxes are those of [inb] (PropsSivia): each coordinate is in the component of the same index. *)

(** ** C70: the tests and the operations are exact on the sets of points *)
Lemma inb_cons v p i x : inb (v :: p) (i :: x) <-> In v i /\ inb p x.
Proof. split; [intros H; inversion H; auto|intros [? ?]; constructor; auto]. Qed.
Lemma inb_nil p : inb p [] <-> p = [].
Proof. split; [intros H; inversion H; auto|intros ->; constructor]. Qed.
Lemma empty_false x p : inb p x -> m_is_empty x = false.
Proof. intros H. induction H as [|v i p x Hv _ IH]; auto. unfold m_is_empty in *. cbn. rewrite IH, orb_false_r. destruct i; auto; destruct Hv. Qed.
Lemma witness x : Forall wf x -> m_is_empty x = false -> exists p, inb p x.
Proof.
  induction x as [|i x IH]; intros W E; cbn in E.
  - exists []. constructor.
  - inversion W; subst. apply orb_false_iff in E. destruct E as [E1 E2]. destruct (IH H2 E2) as [p Hp].
    destruct (wf_witness i) as [v Hv]; auto; [apply is_empty_false; auto|]. exists (v :: p). constructor; auto.
Qed.

Theorem C70_empty : forall x, Forall wf x -> (m_is_empty x = true <-> ~ exists p, inb p x).
Proof.
  intros x W. split.
  - intros E [p Hp]. apply empty_false in Hp. congruence.
  - intros H. destruct (m_is_empty x) eqn:E; auto. destruct H. apply witness; auto.
Qed.

Lemma incl_cons i x j y : (exists p, inb p x) -> (exists v, In v i) -> (forall p, inb p (i :: x) -> inb p (j :: y)) ->
  sub i j /\ forall p, inb p x -> inb p y.
Proof.
  intros [p Hp] [v Hv] H. split.
  - intros u Hu. specialize (H (u :: p)). rewrite !inb_cons in H. tauto.
  - intros q Hq. specialize (H (v :: q)). rewrite !inb_cons in H. tauto.
Qed.
Lemma comp_incl x : forall y p0, Forall wf x -> inb p0 x -> length x = length y -> (forall p, inb p x -> inb p y) -> Forall2 sub x y.
Proof.
  induction x as [|i x IH]; intros y p0 W H0 L H; destruct y as [|j y]; cbn in L; try lia; constructor;
    inversion H0; subst; inversion W; subst; destruct (incl_cons i x j y) as [A B]; eauto.
Qed.
Lemma all_subset x : forall y, Forall wf x -> length x = length y -> (all2 is_subset x y = true <-> Forall2 sub x y).
Proof.
  induction x as [|i x IH]; intros y W L; destruct y as [|j y]; cbn in *; try lia.
  - split; auto.
  - inversion W; subst. rewrite andb_true_iff, IH by (auto; lia). split.
    + intros [A B]. constructor; auto. apply is_subset_sub; auto.
    + intros A. inversion A; subst. split; auto. apply sub_is_subset; auto.
Qed.
Lemma sub_pts x y : Forall2 sub x y -> forall p, inb p x -> inb p y.
Proof. intros H p Hp. eapply inb_sub; eauto. Qed.

Theorem C70_subset : forall x y, Forall wf x -> length x = length y ->
  (m_is_subset x y = true <-> forall p, inb p x -> inb p y).
Proof.
  intros x y W L. unfold m_is_subset. destruct (m_is_empty x) eqn:Ex.
  - split; auto. intros _ p Hp. apply empty_false in Hp. congruence.
  - destruct (witness x W Ex) as [p0 H0]. destruct (m_is_empty y) eqn:Ey.
    + split; [discriminate|]. intros H. specialize (H _ H0). apply empty_false in H. congruence.
    + rewrite all_subset by auto. split; [apply sub_pts|]. apply comp_incl with p0; auto.
Qed.

Lemma strict_loop_spec x : forall y b, length x = length y ->
  (strict_loop x y b = true <-> all2 is_subset x y = true /\ (b = true \/ some2 (fun i j => negb (itv_eqb i j)) x y = true)).
Proof.
  induction x as [|i x IH]; intros y b L; destruct y as [|j y]; cbn in *; try lia.
  - intuition congruence.
  - unfold i_is_strict_subset. destruct (is_subset i j); cbn; [|intuition congruence].
    destruct (negb (itv_eqb i j)); cbn; rewrite IH by lia; intuition.
Qed.
Lemma neq_pt i j : wf i -> wf j -> sub i j -> i <> j -> exists v, In v j /\ ~ In v i.
Proof.
  intros Wi Wj S N. destruct (classic (exists v, In v j /\ ~ In v i)) as [H|H]; auto. exfalso. apply N.
  apply wf_ext; auto. intros v. split; [apply S|]. intros Hv. destruct (In_dec v i); auto. exfalso. eauto.
Qed.
Lemma some_neq x : forall y, Forall wf x -> Forall wf y -> Forall2 sub x y -> m_is_empty y = false ->
  some2 (fun i j => negb (itv_eqb i j)) x y = true -> exists p, inb p y /\ ~ inb p x.
Proof.
  induction x as [|i x IH]; intros y Wx Wy S E H; destruct y as [|j y]; cbn in *; try discriminate.
  inversion Wx; subst. inversion Wy; subst. inversion S; subst. apply orb_false_iff in E. destruct E as [E1 E2].
  apply orb_true_iff in H. destruct H as [H|H].
  - apply negb_true_iff, itv_eqb_false in H. destruct (neq_pt i j) as (v & A & B); auto.
    destruct (witness y) as [p Hp]; auto. exists (v :: p). rewrite !inb_cons. tauto.
  - destruct (IH y) as (p & A & B); auto. destruct (wf_witness j) as [v Hv]; auto; [apply is_empty_false; auto|].
    exists (v :: p). rewrite !inb_cons. tauto.
Qed.
Lemma no_neq x : forall y, length x = length y -> some2 (fun i j => negb (itv_eqb i j)) x y = false -> x = y.
Proof.
  induction x as [|i x IH]; intros y L H; destruct y as [|j y]; cbn in *; try lia; auto.
  apply orb_false_iff in H. destruct H as [A B]. apply negb_false_iff, itv_eqb_true in A. f_equal; auto.
Qed.

Theorem C70_strict_subset : forall x y, Forall wf x -> Forall wf y -> length x = length y ->
  (m_is_strict_subset x y = true <-> (forall p, inb p x -> inb p y) /\ exists p, inb p y /\ ~ inb p x).
Proof.
  intros x y Wx Wy L. unfold m_is_strict_subset. destruct (m_is_empty y) eqn:Ey.
  - split; [discriminate|]. intros [_ (p & Hp & _)]. apply empty_false in Hp. congruence.
  - destruct (witness y Wy Ey) as [p0 H0]. destruct (m_is_empty x) eqn:Ex.
    + split; auto. intros _. split.
      * intros p Hp. apply empty_false in Hp. congruence.
      * exists p0. split; auto. intros Hp. apply empty_false in Hp. congruence.
    + destruct (witness x Wx Ex) as [p1 H1]. rewrite strict_loop_spec, all_subset by auto. split.
      * intros [A [B|B]]; [discriminate|]. split; [apply sub_pts; auto|]. apply some_neq; auto.
      * intros [A (p & B & C)]. split; [apply comp_incl with p1; auto|]. right.
        destruct (some2 _ x y) eqn:E; auto. apply no_neq in E; auto. subst. tauto.
Qed.

Lemma all_contains x : forall p, length p = length x -> (all2 contains x p = true <-> inb p x).
Proof.
  induction x as [|i x IH]; intros p L; destruct p as [|v p]; cbn in *; try lia.
  - split; auto. constructor.
  - rewrite andb_true_iff, IH by lia. rewrite contains_true, inb_cons. tauto.
Qed.
Theorem C70_contains : forall x p, length p = length x -> (m_contains x p = true <-> inb p x).
Proof.
  intros x p L. unfold m_contains. destruct (m_is_empty x) eqn:E.
  - split; [discriminate|]. intros H. apply empty_false in H. congruence.
  - apply all_contains; auto.
Qed.

Lemma intersects_pt i j : wf i -> wf j -> (intersects i j = true <-> exists v, In v i /\ In v j).
Proof.
  intros Wi Wj. unfold intersects. rewrite negb_true_iff, is_empty_false. split.
  - intros H. destruct (wf_witness (inter i j)) as [v Hv]; auto using wf_inter. apply In_inter in Hv. eauto.
  - intros (v & A & B) E. assert (H : In v (inter i j)) by (apply In_inter; auto). rewrite E in H. destruct H.
Qed.
Lemma all_intersects x : forall y, Forall wf x -> Forall wf y -> length x = length y ->
  (all2 intersects x y = true <-> exists p, inb p x /\ inb p y).
Proof.
  induction x as [|i x IH]; intros y Wx Wy L; destruct y as [|j y]; cbn in *; try lia.
  - split; auto. intros _. exists []. split; constructor.
  - inversion Wx; subst. inversion Wy; subst. rewrite andb_true_iff, IH by (auto; lia). rewrite intersects_pt by auto. split.
    + intros [(v & A & B) (p & C & D)]. exists (v :: p). rewrite !inb_cons. tauto.
    + intros (p & A & B). inversion A; subst. inversion B; subst. split; eexists; split; eassumption.
Qed.
Theorem C70_intersects : forall x y, Forall wf x -> Forall wf y -> length x = length y ->
  (m_intersects x y = true <-> exists p, inb p x /\ inb p y).
Proof.
  intros x y Wx Wy L. unfold m_intersects. destruct (m_is_empty x || m_is_empty y) eqn:E.
  - split; [discriminate|]. intros (p & A & B). apply empty_false in A. apply empty_false in B. rewrite A, B in E. discriminate.
  - apply all_intersects; auto.
Qed.
Lemma some_disjoint x : forall y, length x = length y -> some2 i_is_disjoint x y = negb (all2 intersects x y).
Proof.
  induction x as [|i x IH]; intros y L; destruct y as [|j y]; cbn in *; try lia; auto.
  rewrite IH by lia. unfold i_is_disjoint, intersects. rewrite negb_andb, negb_involutive. reflexivity.
Qed.
Theorem C70_disjoint : forall x y, Forall wf x -> Forall wf y -> length x = length y ->
  (m_is_disjoint x y = true <-> ~ exists p, inb p x /\ inb p y).
Proof.
  intros x y Wx Wy L. rewrite <- C70_intersects by auto. unfold m_is_disjoint, m_intersects.
  destruct (m_is_empty x || m_is_empty y); [intuition congruence|]. rewrite some_disjoint by auto. destruct (all2 intersects x y); cbn; intuition congruence.
Qed.

Lemma all_eqb x : forall y, length x = length y -> (all2 itv_eqb x y = true <-> x = y).
Proof.
  induction x as [|i x IH]; intros y L; destruct y as [|j y]; cbn in *; try lia; [tauto|].
  rewrite andb_true_iff, itv_eqb_true, IH by lia. split; [intros [-> ->]; auto|intros E; inversion E; auto].
Qed.
Lemma Forall2_sub_eq x : forall y, Forall wf x -> Forall wf y -> Forall2 sub x y -> Forall2 sub y x -> x = y.
Proof.
  induction x as [|i x IH]; intros y Wx Wy A B; inversion A; subst; auto. inversion B; subst. inversion Wx; subst. inversion Wy; subst.
  f_equal; auto. apply wf_ext; auto. split; auto.
Qed.
Theorem C70_eq : forall x y, Forall wf x -> Forall wf y -> length x = length y ->
  (m_eqb x y = true <-> forall p, inb p x <-> inb p y).
Proof.
  intros x y Wx Wy L. unfold m_eqb. rewrite L, Nat.eqb_refl. cbn [negb].
  destruct (m_is_empty x) eqn:Ex, (m_is_empty y) eqn:Ey; cbn.
  - split; auto. intros _ p. split; intros H; apply empty_false in H; congruence.
  - split; [discriminate|]. intros H. destruct (witness y Wy Ey) as [p Hp]. apply H in Hp. apply empty_false in Hp. congruence.
  - split; [discriminate|]. intros H. destruct (witness x Wx Ex) as [p Hp]. apply H in Hp. apply empty_false in Hp. congruence.
  - rewrite all_eqb by auto. split; [intros ->; tauto|]. intros H.
    destruct (witness x Wx Ex) as [p Hp]. destruct (witness y Wy Ey) as [q Hq].
    apply Forall2_sub_eq; auto; [apply comp_incl with p|apply comp_incl with q]; auto; intros r Hr; apply H; auto.
Qed.

Lemma map_emp (x : box) p : inb p (map (fun _ => Emp) x) -> x = [].
Proof. destruct x; auto. intros H. inversion H; subst. destruct H3. Qed.
Lemma inb_map2 x : forall y p, length x = length y -> (inb p (map2 inter x y) <-> inb p x /\ inb p y).
Proof.
  induction x as [|i x IH]; intros y p L; destruct y as [|j y]; cbn in *; try lia.
  - tauto.
  - destruct p as [|v p].
    + split; [intros H; inversion H|intros [H _]; inversion H].
    + rewrite !inb_cons, IH by lia. rewrite In_inter. tauto.
Qed.
Theorem C70_inter : forall x y p, length x = length y -> (inb p (m_inter x y) <-> inb p x /\ inb p y).
Proof.
  intros x y p L. unfold m_inter. destruct (m_is_empty x) eqn:Ex.
  - split; [|tauto]. intros H. apply empty_false in H. congruence.
  - destruct (m_is_empty y) eqn:Ey.
    + split; [|intros [_ H]; apply empty_false in H; congruence]. intros H. apply map_emp in H. subst. destruct y; [discriminate|discriminate].
    + apply inb_map2; auto.
Qed.
Lemma inter_len x y : length x = length y -> length (m_inter x y) = length x.
Proof.
  intros L. unfold m_inter. destruct (m_is_empty x); auto. destruct (m_is_empty y); [apply map_length|].
  revert y L. induction x; intros [|j y] L; cbn in *; try lia; auto.
Qed.

Lemma map2_hull x : forall y p, length x = length y -> inb p x \/ inb p y -> inb p (map2 hull x y).
Proof.
  induction x as [|i x IH]; intros y p L H; destruct y as [|j y]; cbn in *; try lia; [tauto|].
  destruct p as [|v p]; [destruct H as [H|H]; inversion H|]. rewrite !inb_cons in *. split.
  - destruct H; [apply In_hull_l|apply In_hull_r]; tauto.
  - apply IH; [lia|tauto].
Qed.
Lemma map2_least x : forall y z, Forall wf x -> Forall wf y -> Forall2 sub x z -> Forall2 sub y z -> Forall2 sub (map2 hull x y) z.
Proof.
  induction x as [|i x IH]; intros y z Wx Wy A B; inversion A; subst; inversion B; subst; cbn; constructor; inversion Wx; subst; inversion Wy; subst; auto.
  apply hull_least; auto.
Qed.
Theorem C70_hull : forall x y, Forall wf x -> Forall wf y -> length x = length y ->
  (forall p, inb p x \/ inb p y -> inb p (m_hull x y)) /\
  (forall z, length z = length x -> (forall p, inb p x \/ inb p y -> inb p z) -> forall p, inb p (m_hull x y) -> inb p z).
Proof.
  intros x y Wx Wy L. unfold m_hull. destruct (m_is_empty y) eqn:Ey.
  { split; [|auto]. intros p [H|H]; auto. apply empty_false in H. congruence. }
  destruct (m_is_empty x) eqn:Ex.
  { split; [|auto]. intros p [H|H]; auto. apply empty_false in H. congruence. }
  split; [intros p; apply map2_hull; auto|]. intros z Lz H. destruct (witness x Wx Ex) as [p Hp]. destruct (witness y Wy Ey) as [q Hq].
  apply sub_pts. apply map2_least; auto; [apply comp_incl with p|apply comp_incl with q]; auto; lia.
Qed.
Lemma hull_wf x y : Forall wf x -> Forall wf y -> Forall wf (m_hull x y).
Proof.
  intros Wx Wy. unfold m_hull. destruct (m_is_empty y); auto. destruct (m_is_empty x); auto.
  revert y Wy. induction Wx; intros y Wy; destruct y; cbn; constructor; inversion Wy; subst; auto. apply wf_hull; auto.
Qed.

Ltac unb H := repeat match type of H with inb (_ :: _) (_ :: _) => apply inb_cons in H; let a := fresh "U" in destruct H as [a H]; cbn in a
  | inb ?p (_ :: _) => let v := fresh "v" in let q := fresh "q" in destruct p as [|v q]; [inversion H|] | inb ?p [] => apply inb_nil in H; subst end.
Ltac pts := repeat apply Forall2_cons; try apply Forall2_nil; cbn; try lra.
Example C70_ex :
  m_is_empty [I2 0 1; Emp] = true /\ m_is_strict_subset [I2 0 1; I2 0 1] [I2 0 2; I2 0 1] = true /\
  m_is_disjoint [I2 0 1; I2 0 1] [I2 0 1; I2 2 3] = true /\ m_hull [I2 0 1] [I2 2 3] = [I2 0 3].
Proof.
  refine (conj eq_refl (conj _ (conj _ _))).
  - apply C70_strict_subset; [repeat constructor; cbn; lra|repeat constructor; cbn; lra|reflexivity|]. split.
    + intros p Hp. unb Hp. pts.
    + exists [2; 0]. split; [pts|]. intros H. unb H. lra.
  - apply C70_disjoint; [repeat constructor; cbn; lra|repeat constructor; cbn; lra|reflexivity|]. intros (p & A & B).
    unb A. unb B. lra.
  - cbn. unfold hull, I2, Concrete.I2; cbn. reval. reflexivity.
Qed.
Print Assumptions C70_strict_subset.
Print Assumptions C70_hull.

(** ** C71: selection of the largest and of the thinnest component, bisection *)
Definition bounded (i : itv) : Prop := exists a b, i = Itv (Some a) (Some b).

Definition key (i : itv) : option R :=
  match i with Itv None (Some b) => Some (- b) | Itv (Some a) None => Some a | _ => None end.
Definition better (mn : bool) (k : R) (p : option R) : bool :=
  match p with None => true | Some p => if mn then Rltb p k else Rltb k p end.
Lemma loop2_cons mn xi x i p sel : diam_loop2 mn (xi :: x) i p sel =
  match key xi with
  | Some k => if better mn k p then diam_loop2 mn x (S i) (Some k) i else diam_loop2 mn x (S i) p sel
  | None => match xi with Itv None None => if mn then diam_loop2 mn x (S i) p sel else i | _ => diam_loop2 mn x (S i) p sel end
  end.
Proof. destruct xi as [|[a|] [b|]]; reflexivity. Qed.
Lemma better_trans mn a b p : better mn a p = true -> better mn b (Some a) = true -> better mn b p = true.
Proof. destruct p as [p|]; auto. destruct mn; cbn; rewrite !Rltb_true; lra. Qed.
Lemma better_neg mn a b p : better mn a p = false -> better mn b p = true -> better mn a (Some b) = false.
Proof. destruct p as [p|]; [|discriminate]. destruct mn; cbn; rewrite Rltb_true, !Rltb_false; lra. Qed.
Lemma better_neg2 mn a b p : better mn a p = true -> better mn b (Some a) = false -> better mn b p = true -> better mn b (Some a) = false.
Proof. auto. Qed.
Lemma better_irr mn a : better mn a (Some a) = false.
Proof. destruct mn; cbn; rewrite Rltb_false; lra. Qed.
Lemma loop2_spec mn x : forall i p sel,
  (mn = false /\ exists k, diam_loop2 mn x i p sel = (i + k)%nat /\ nth_error x k = Some ALL) \/
  ((mn = true \/ ~ List.In ALL x) /\
   ((diam_loop2 mn x i p sel = sel /\ forall xj kj, List.In xj x -> key xj = Some kj -> better mn kj p = false) \/
    (exists k xk kk, diam_loop2 mn x i p sel = (i + k)%nat /\ nth_error x k = Some xk /\ key xk = Some kk /\ better mn kk p = true /\
       forall xj kj, List.In xj x -> key xj = Some kj -> better mn kj (Some kk) = false))).
Proof.
  induction x as [|xi x IH]; intros i p sel.
  - right. split; [right; intros []|]. left. split; [reflexivity|]. intros ? ? [].
  - rewrite loop2_cons. destruct (key xi) as [k|] eqn:K.
    + assert (NA : xi <> ALL) by (intros ->; discriminate).
      destruct (better mn k p) eqn:Bt.
      * destruct (IH (S i) (Some k) i) as [[M (j & E & N)]|[M [[E H]|(j & xk & kk & E & N & Kk & Bk & H)]]].
        -- left. split; auto. exists (S j). split; [lia|exact N].
        -- right. split; [destruct M; [left; auto|right; intros [->|?]; tauto]|]. right. exists 0%nat, xi, k.
           refine (conj _ (conj eq_refl (conj K (conj Bt _)))); [lia|]. intros xj kj [<-|I] Kj; [|eauto].
           rewrite K in Kj. inversion Kj. apply better_irr.
        -- right. split; [destruct M; [left; auto|right; intros [->|?]; tauto]|]. right. exists (S j), xk, kk.
           refine (conj _ (conj N (conj Kk (conj (better_trans _ _ _ _ Bt Bk) _)))); [lia|]. intros xj kj [<-|I] Kj; [|eauto].
           rewrite K in Kj. inversion Kj; subst. apply better_neg with (p := Some kj); auto. apply better_irr.
      * destruct (IH (S i) p sel) as [[M (j & E & N)]|[M [[E H]|(j & xk & kk & E & N & Kk & Bk & H)]]].
        -- left. split; auto. exists (S j). split; [lia|exact N].
        -- right. split; [destruct M; [left; auto|right; intros [->|?]; tauto]|]. left. split; auto.
           intros xj kj [<-|I] Kj; [congruence|eauto].
        -- right. split; [destruct M; [left; auto|right; intros [->|?]; tauto]|]. right. exists (S j), xk, kk.
           refine (conj _ (conj N (conj Kk (conj Bk _)))); [lia|]. intros xj kj [<-|I] Kj; [|eauto].
           rewrite K in Kj. inversion Kj; subst. apply better_neg with (p := p); auto.
    + assert (D : (mn = false /\ xi = ALL) \/ ((mn = true \/ xi <> ALL) /\ (match xi with Itv None None => if mn then diam_loop2 mn x (S i) p sel else i | _ => diam_loop2 mn x (S i) p sel end) = diam_loop2 mn x (S i) p sel)).
      { destruct xi as [|[a|] [b|]]; try discriminate K; destruct mn; auto; right; split; auto; right; discriminate. }
      destruct D as [[-> ->]|[D ->]].
      * left. split; auto. exists 0%nat. split; [cbn; lia|reflexivity].
      * destruct (IH (S i) p sel) as [[M (j & E & N)]|[M [[E H]|(j & xk & kk & E & N & Kk & Bk & H)]]].
        -- left. split; auto. exists (S j). split; [lia|exact N].
        -- right. split; [destruct M; [left; auto|destruct D; [left; auto|right; intros [->|?]; tauto]]|]. left. split; auto.
           intros xj kj [<-|I] Kj; [congruence|eauto].
        -- right. split; [destruct M; [left; auto|destruct D; [left; auto|right; intros [->|?]; tauto]]|]. right. exists (S j), xk, kk.
           refine (conj _ (conj N (conj Kk (conj Bk _)))); [lia|]. intros xj kj [<-|I] Kj; [congruence|eauto].
Qed.

(** first loop, without unbounded component *)
Definition nice (x : box) : Prop := Forall (fun i => i <> Emp /\ wf i) x.
Lemma loop1_max x : forall i d sel unb, nice x ->
  (exists k, diam_loop1 false x i (Some d) sel unb = ((i + k)%nat, true, snd (diam_loop1 false x i (Some d) sel unb)) /\ (k < length x)%nat /\
     is_unbounded (nth k x Emp) = true /\ forall j, (j < k)%nat -> is_unbounded (nth j x Emp) = false) \/
  (Forall (fun i => is_unbounded i = false) x /\ exists e, diam_loop1 false x i (Some d) sel unb = ((i + length x)%nat, unb, e) /\
     ((e = sel /\ Forall (fun i => i_diam i <= d) x) \/
      exists k, e = Some (i + k)%nat /\ (k < length x)%nat /\ d < i_diam (nth k x Emp) /\ Forall (fun i => i_diam i <= i_diam (nth k x Emp)) x /\
        forall j, (j < k)%nat -> i_diam (nth j x Emp) < i_diam (nth k x Emp))).
Proof.
  induction x as [|xi x IH]; intros i d sel unb W.
  - right. split; [constructor|]. exists sel. cbn. rewrite Nat.add_0_r. split; auto.
  - inversion W; subst. cbn [diam_loop1]. destruct (is_unbounded xi) eqn:U.
    + left. exists 0%nat. rewrite Nat.add_0_r. cbn. refine (conj eq_refl (conj _ (conj U _))); [lia|]. intros j Hj. lia.
    + destruct (Rltb d (i_diam xi)) eqn:B.
      * destruct (IH (S i) (i_diam xi) (Some i) unb) as [(k & E & Lk & Uk & Pk)|(F & e & E & H)]; auto.
        -- left. exists (S k). rewrite E at 1. cbn [length nth]. refine (conj _ (conj _ (conj Uk _))); [f_equal; f_equal; lia|lia|].
           intros [|j] Hj; auto. apply Pk. lia.
        -- right. split; [constructor; auto|]. exists e. split; [rewrite E; cbn; f_equal; f_equal; lia|]. apply Rltb_true in B. right.
           destruct H as [[-> G]|(k & -> & Lk & Dk & G & Pk)].
           ++ exists 0%nat. cbn. refine (conj _ (conj _ (conj B (conj _ _)))); [f_equal; lia|lia|constructor; [lra|auto]|intros; lia].
           ++ exists (S k). cbn. refine (conj _ (conj _ (conj _ (conj _ _)))); [f_equal; lia|lia|lra|constructor; [lra|auto]|].
              intros [|j] Hj; auto. apply Pk. lia.
      * destruct (IH (S i) d sel unb) as [(k & E & Lk & Uk & Pk)|(F & e & E & H)]; auto.
        -- left. exists (S k). rewrite E at 1. cbn [length nth]. refine (conj _ (conj _ (conj Uk _))); [f_equal; f_equal; lia|lia|].
           intros [|j] Hj; auto. apply Pk. lia.
        -- right. split; [constructor; auto|]. exists e. split; [rewrite E; cbn; f_equal; f_equal; lia|]. apply Rltb_false in B.
           destruct H as [[-> G]|(k & -> & Lk & Dk & G & Pk)].
           ++ left. split; auto.
           ++ right. exists (S k). cbn. refine (conj _ (conj _ (conj Dk (conj _ _)))); [f_equal; lia|lia|constructor; [lra|auto]|].
              intros [|j] Hj; [lra|]. apply Pk. lia.
Qed.
Lemma loop1_min x : forall i d sel unb, nice x ->
  exists e, diam_loop1 true x i d sel unb = ((i + length x)%nat, (unb || existsb is_unbounded x)%bool, e) /\
    ((e = sel /\ Forall (fun i => is_unbounded i = true \/ (exists d0, d = Some d0 /\ d0 <= i_diam i)) x) \/
     exists k, e = Some (i + k)%nat /\ (k < length x)%nat /\ is_unbounded (nth k x Emp) = false /\
       (forall d0, d = Some d0 -> i_diam (nth k x Emp) < d0) /\
       Forall (fun i => is_unbounded i = true \/ i_diam (nth k x Emp) <= i_diam i) x).
Proof.
  induction x as [|xi x IH]; intros i d sel unb W.
  - exists sel. cbn. rewrite Nat.add_0_r, orb_false_r. split; auto.
  - inversion W; subst. cbn [diam_loop1 existsb]. destruct (is_unbounded xi) eqn:U.
    + destruct (IH (S i) d sel true) as (e & E & H); auto. exists e. rewrite E. cbn [orb length]. rewrite orb_true_r.
      split; [f_equal; f_equal; lia|]. destruct H as [[-> G]|(k & -> & Lk & Uk & Dk & G)].
      * left. split; auto.
      * right. exists (S k). cbn. refine (conj _ (conj _ (conj Uk (conj Dk _)))); [f_equal; lia|lia|constructor; auto].
    + cbn [orb length]. destruct (match d with None => true | Some d => Rltb (i_diam xi) d end) eqn:B.
      * destruct (IH (S i) (Some (i_diam xi)) (Some i) unb) as (e & E & H); auto. exists e. split; [rewrite E; f_equal; f_equal; lia|]. right.
        assert (B' : forall d0, d = Some d0 -> i_diam xi < d0) by (intros d0 ->; apply Rltb_true; auto).
        destruct H as [[-> G]|(k & -> & Lk & Uk & Dk & G)].
        -- exists 0%nat. cbn. refine (conj _ (conj _ (conj U (conj B' _)))); [f_equal; lia|lia|]. constructor; [right; lra|].
           eapply Forall_impl; [|exact G]. cbv beta. intros a [?|(d0 & E0 & ?)]; auto. inversion E0; subst; auto.
        -- exists (S k). cbn. refine (conj _ (conj _ (conj Uk (conj _ _)))); [f_equal; lia|lia| |].
           ++ intros d0 E0. specialize (B' _ E0). specialize (Dk _ eq_refl). lra.
           ++ constructor; auto. right. specialize (Dk _ eq_refl). lra.
      * destruct d as [d|]; [|discriminate]. apply Rltb_false in B.
        destruct (IH (S i) (Some d) sel unb) as (e & E & H); auto. exists e. split; [rewrite E; f_equal; f_equal; lia|].
        destruct H as [[-> G]|(k & -> & Lk & Uk & Dk & G)].
        -- left. split; auto. constructor; auto. right. exists d. split; auto. 
        -- right. exists (S k). cbn. refine (conj _ (conj _ (conj Uk (conj Dk _)))); [f_equal; lia|lia|]. constructor; auto. right. specialize (Dk _ eq_refl). lra.
Qed.

Lemma nice_of x : Forall wf x -> m_is_empty x = false -> nice x.
Proof.
  intros W E. induction W as [|i x Wi W IH]; [constructor|]. unfold m_is_empty in *. cbn in E. apply orb_false_iff in E. destruct E as [E1 E2].
  constructor; [split; auto; apply is_empty_false; auto|apply IH; auto].
Qed.
Lemma unb_key i : i <> Emp -> is_unbounded i = true -> i = ALL \/ exists k, key i = Some k.
Proof. destruct i as [|[a|] [b|]]; cbn; try congruence; eauto. Qed.
Lemma key_unb i k : key i = Some k -> is_unbounded i = true.
Proof. destruct i as [|[a|] [b|]]; cbn; congruence. Qed.
Lemma half_sub i j k : key i = Some k -> sub i j -> j <> ALL -> exists k', key j = Some k' /\ k' <= k /\ (k' = k -> j = i).
Proof.
  intros K S N. destruct i as [|[a|] [b|]]; try discriminate; inversion K; subst; unfold sub in S; cbn in S.
  - destruct j as [|[c|] [d|]].
    + destruct (S k). lra.
    + destruct (S (Rmax k (d + 1))) as [_ H]; [split; auto; apply Rmax_l|]. cbn in H. pose proof (Rmax_r k (d + 1)). lra.
    + exists c. destruct (S k) as [H _]; [cbn; split; auto; lra|]. cbn in H. refine (conj eq_refl (conj H _)). intros ->; auto.
    + destruct (S (Rmax k (d + 1))) as [_ H]; [split; auto; apply Rmax_l|]. cbn in H. pose proof (Rmax_r k (d + 1)). lra.
    + destruct N. reflexivity.
  - destruct j as [|[c|] [d|]].
    + destruct (S b). lra.
    + destruct (S (Rmin b (c - 1))) as [H _]; [split; auto; apply Rmin_l|]. cbn in H. pose proof (Rmin_r b (c - 1)). lra.
    + destruct (S (Rmin b (c - 1))) as [H _]; [split; auto; apply Rmin_l|]. cbn in H. pose proof (Rmin_r b (c - 1)). lra.
    + exists (- d). destruct (S b) as [_ H]; [cbn; split; auto; lra|]. cbn in H. refine (conj eq_refl (conj _ _)); [lra|]. intros E. f_equal. f_equal. lra.
    + destruct N. reflexivity.
Qed.
Lemma all_sub j : wf j -> sub ALL j -> j = ALL.
Proof. intros W S. apply wf_ext; auto; [exact I|]. intros v. split; auto. intros _. cbn; auto. Qed.
Lemma unb_sub i j : i <> Emp -> is_unbounded i = true -> sub i j -> is_unbounded j = true.
Proof.
  intros N U S. destruct (unb_key i N U) as [->|[k K]].
  - destruct j as [|[c|] [d|]]; auto; unfold sub in S; cbn in S; [destruct (S 0); auto|]. destruct (S (c - 1)) as [H _]; cbn; auto. lra.
  - destruct (classic (j = ALL)) as [->|NJ]; auto. destruct (half_sub i j k K S NJ) as (k' & K' & _). eapply key_unb; eauto.
Qed.
Lemma bnd_sub i j : wf i -> i <> Emp -> is_unbounded i = false -> is_unbounded j = false -> sub i j -> i_diam j <= i_diam i -> j = i.
Proof.
  intros W N Ui Uj S D. destruct i as [|[a|] [b|]]; try discriminate; try congruence. cbn in W.
  destruct j as [|[c|] [d|]]; try discriminate.
  - destruct (S a); cbn; lra.
  - pose proof (S a) as A. pose proof (S b) as B. cbn in A, B, D. f_equal; f_equal; lra.
Qed.
Lemma nth_nice x k : nice x -> (k < length x)%nat -> nth k x Emp <> Emp /\ wf (nth k x Emp).
Proof. intros H L. unfold nice in H. rewrite Forall_forall in H. apply H. apply nth_In; auto. Qed.
Lemma nth_skipn {A} k j (x : list A) d : nth j (skipn k x) d = nth (k + j) x d.
Proof. revert x. induction k; intros [|a x]; cbn; auto; destruct j; auto. Qed.
Lemma nice_skipn k x : nice x -> nice (skipn k x).
Proof. intros H. unfold nice in *. rewrite <- (firstn_skipn k x) in H. apply Forall_app in H. tauto. Qed.

(** the component of [largest_diam_index] is never strictly included in another one; when all the components are
    bounded it has the largest width and is the first of this width; it is unbounded as soon as there is an unbounded
    component *)
Theorem C71_largest : forall x, Forall wf x -> x <> [] -> m_is_empty x = false ->
  exists r, extr_diam_index false x = Some r /\ (r < length x)%nat /\
    (forall j, (j < length x)%nat -> sub (nth r x Emp) (nth j x Emp) -> nth j x Emp = nth r x Emp) /\
    (Forall bounded x -> (forall j, (j < length x)%nat -> i_diam (nth j x Emp) <= i_diam (nth r x Emp)) /\
                         (forall j, (j < r)%nat -> i_diam (nth j x Emp) < i_diam (nth r x Emp))) /\
    (bounded (nth r x Emp) -> Forall bounded x).
Proof.
  intros x W NE E. pose proof (nice_of x W E) as Nx. unfold extr_diam_index. rewrite E.
  assert (BU : forall i, i <> Emp -> (bounded i <-> is_unbounded i = false)).
  { intros i Ni. destruct i as [|[a|] [b|]]; cbn; try congruence; split; intros H; try discriminate; try reflexivity; try (destruct H as (? & ? & ?); discriminate). exists a, b; auto. }
  destruct (loop1_max x 0 (-1) None false Nx) as [(k & E1 & Lk & Uk & Pk)|(F & e & E1 & H)].
  - destruct (diam_loop1 false x 0 (Some (-1)) None false) as [[i u] s] eqn:E2. inversion E1; subst. cbn [andb negb orb Nat.add].
    destruct (nth_nice x k Nx Lk) as [Nk _].
    assert (Q : exists r, diam_loop2 false (skipn k x) k None k = r /\ (r < length x)%nat /\ is_unbounded (nth r x Emp) = true /\
      forall j, (j < length x)%nat -> sub (nth r x Emp) (nth j x Emp) -> nth j x Emp = nth r x Emp).
    { eexists. split; [reflexivity|].
      assert (IN : forall j, (j < length x)%nat -> is_unbounded (nth j x Emp) = true -> List.In (nth j x Emp) (skipn k x)).
      { intros j Lj Uj. assert (k <= j)%nat by (destruct (le_lt_dec k j); auto; rewrite Pk in Uj by auto; discriminate).
        replace (nth j x Emp) with (nth (j - k) (skipn k x) Emp) by (rewrite nth_skipn; f_equal; lia). apply nth_In. rewrite skipn_length. lia. }
      destruct (loop2_spec false (skipn k x) k None k) as [[_ (m & -> & Nm)]|[[M|M] [[-> H]|(m & xk & kk & -> & Nm & Kk & _ & H)]]].
      - assert (Lm : (m < length (skipn k x))%nat) by (apply nth_error_Some; congruence). rewrite skipn_length in Lm.
        apply (nth_error_nth _ _ Emp) in Nm. rewrite nth_skipn in Nm. rewrite Nm. refine (conj _ (conj eq_refl _)); [lia|].
        intros j Lj S. apply all_sub; auto. apply nth_nice; auto.
      - discriminate.
      - discriminate.
      - exfalso. destruct (unb_key _ Nk Uk) as [A|[kk K]].
        + apply M. rewrite <- A. apply IN; auto.
        + specialize (H _ _ (IN k Lk Uk) K). discriminate.
      - assert (Lm : (m < length (skipn k x))%nat) by (apply nth_error_Some; congruence). rewrite skipn_length in Lm.
        apply (nth_error_nth _ _ Emp) in Nm. rewrite nth_skipn in Nm. rewrite Nm. refine (conj _ (conj (key_unb _ _ Kk) _)); [lia|].
        intros j Lj S. assert (Uj : is_unbounded (nth j x Emp) = true).
        { apply unb_sub with xk; auto; [|eapply key_unb; eauto]. intros ->; discriminate. }
        destruct (half_sub xk (nth j x Emp) kk Kk S) as (k' & K' & Le & Eq).
        + intros A. apply M. rewrite <- A. apply IN; auto.
        + apply Eq. specialize (H _ _ (IN j Lj Uj) K'). cbn in H. apply Rltb_false in H. lra. }
    destruct Q as (r & -> & Lr & Ur & Q). exists r. refine (conj eq_refl (conj Lr (conj Q (conj _ _)))).
    + intros FB. exfalso. rewrite Forall_forall in FB. specialize (FB (nth k x Emp) (nth_In _ _ Lk)). apply BU in FB; auto. congruence.
    + intros B. exfalso. apply BU in B; [congruence|]. apply nth_nice; auto.
  - rewrite E1. cbn [andb].
    destruct H as [[-> G]|(k & -> & Lk & Dk & G & Pk)].
    { exfalso. destruct x as [|i x]; [congruence|]. inversion G as [|? ? G1 _]; subst. inversion Nx as [|? ? [N1 W1] _]; subst. inversion F as [|? ? F1 _]; subst.
      destruct i as [|[a|] [b|]]; try discriminate; try congruence. cbn in *. lra. }
    exists k. cbn [Nat.add]. rewrite Forall_forall in G. rewrite Forall_forall in F.
    refine (conj eq_refl (conj Lk (conj _ (conj _ _)))).
    + intros j Lj S. destruct (nth_nice x k Nx Lk). apply bnd_sub; auto; [apply F|apply F|apply G]; apply nth_In; auto.
    + intros _. split; auto. intros j Lj. apply G. apply nth_In; auto.
    + intros _. apply Forall_forall. intros i Hi. apply BU; auto. unfold nice in Nx. rewrite Forall_forall in Nx. apply Nx; auto.
Qed.

Theorem C71_thinnest : forall x, Forall wf x -> x <> [] -> m_is_empty x = false ->
  exists r, extr_diam_index true x = Some r /\ (r < length x)%nat /\
    ((exists j, (j < length x)%nat /\ bounded (nth j x Emp)) ->
       bounded (nth r x Emp) /\ forall j, (j < length x)%nat -> bounded (nth j x Emp) -> i_diam (nth r x Emp) <= i_diam (nth j x Emp)) /\
    (forall j, (j < length x)%nat -> sub (nth j x Emp) (nth r x Emp) -> nth j x Emp = nth r x Emp).
Proof.
  intros x W NE E. pose proof (nice_of x W E) as Nx. unfold extr_diam_index. rewrite E.
  assert (BU : forall i, i <> Emp -> (bounded i <-> is_unbounded i = false)).
  { intros i Ni. destruct i as [|[a|] [b|]]; cbn; try congruence; split; intros H; try discriminate; try reflexivity; try (destruct H as (? & ? & ?); discriminate). exists a, b; auto. }
  destruct (loop1_min x 0 None None false Nx) as (e & -> & H). cbn [andb orb negb Nat.add].
  destruct H as [[-> G]|(k & -> & Lk & Uk & _ & G)].
  - assert (GU : forall i, List.In i x -> is_unbounded i = true).
    { intros i Hi. rewrite Forall_forall in G. destruct (G i Hi) as [?|(d0 & ? & _)]; auto; discriminate. }
    assert (X : existsb is_unbounded x = true).
    { destruct x as [|i x]; [congruence|]. cbn. rewrite GU by (left; auto). reflexivity. }
    rewrite X. cbn [andb skipn]. eexists. split; [reflexivity|].
    assert (NB : forall j, (j < length x)%nat -> ~ bounded (nth j x Emp)).
    { intros j Lj B. apply BU in B; [|apply nth_nice; auto]. rewrite GU in B by (apply nth_In; auto). discriminate. }
    assert (L0 : (0 < length x)%nat) by (destruct x; [congruence|cbn; lia]).
    destruct (loop2_spec true x 0 None 0) as [[M _]|[_ [[-> H]|(m & xk & kk & -> & Nm & Kk & _ & H)]]]; [discriminate| |].
    + refine (conj L0 (conj _ _)); [intros (j & Lj & B); destruct (NB j Lj B)|].
      intros j Lj S. assert (A : forall i, (i < length x)%nat -> nth i x Emp = ALL).
      { intros i Li. destruct (nth_nice x i Nx Li) as [Ni _]. destruct (unb_key _ Ni (GU _ (nth_In _ _ Li))) as [?|[kk K]]; auto.
        specialize (H _ _ (nth_In _ _ Li) K). discriminate. }
      rewrite !A; auto.
    + assert (Lm : (m < length x)%nat) by (apply nth_error_Some; congruence). apply (nth_error_nth _ _ Emp) in Nm. cbn [Nat.add]. rewrite Nm.
      refine (conj Lm (conj _ _)); [intros (j & Lj & B); destruct (NB j Lj B)|].
      intros j Lj S. destruct (nth_nice x j Nx Lj) as [Nj Wj]. assert (NA : xk <> ALL) by (intros ->; discriminate).
      destruct (unb_key _ Nj (GU _ (nth_In _ _ Lj))) as [A|[k' K']].
      * exfalso. apply NA. rewrite A in S. apply all_sub; auto. rewrite <- Nm. apply nth_nice; auto.
      * destruct (half_sub (nth j x Emp) xk k' K' S NA) as (k2 & K2 & Le & Eq). rewrite Kk in K2. inversion K2; subst k2.
        symmetry. apply Eq. specialize (H _ _ (nth_In _ _ Lj) K'). cbn in H. apply Rltb_false in H. lra.
  - rewrite andb_false_r. exists k. rewrite Forall_forall in G. destruct (nth_nice x k Nx Lk) as [Nk Wk].
    assert (S0 : existsb is_unbounded x && (false || false) = false) by (rewrite andb_false_r; auto). 
    refine (conj eq_refl (conj Lk (conj _ _))).
    + intros _. split; [apply BU; auto|]. intros j Lj B. apply BU in B; [|apply nth_nice; auto].
      destruct (G _ (nth_In _ Emp Lj)) as [?|?]; auto. congruence.
    + intros j Lj S. destruct (nth_nice x j Nx Lj) as [Nj Wj]. destruct (G _ (nth_In _ Emp Lj)) as [U|D].
      * exfalso. pose proof (unb_sub _ _ Nj U S). congruence.
      * symmetry. destruct (is_unbounded (nth j x Emp)) eqn:U; [pose proof (unb_sub _ _ Nj U S); congruence|].
        apply bnd_sub; auto.
Qed.

(** What is expected of [Interval::bisect] (IBEX): it cuts at a point strictly inside the interval *)
Record ibis_ok (bis : itv -> option (itv * itv)) : Prop := {
  ib_emp : bis Emp = None;
  ib_cut : forall l h a b, bis (Itv l h) = Some (a, b) -> exists m,
    (forall x, l = Some x -> x < m) /\ (forall x, h = Some x -> m < x) /\ a = Itv l (Some m) /\ b = Itv (Some m) h }.
(** an instance: in the middle of bounded intervals of positive width *)
Definition bis_mid (i : itv) : option (itv * itv) :=
  match i with
  | Itv (Some a) (Some b) => if Rltb a b then Some (Itv (Some a) (Some ((a + b) / 2)), Itv (Some ((a + b) / 2)) (Some b)) else None
  | _ => None
  end.
Lemma bis_mid_ok : ibis_ok bis_mid.
Proof.
  split; [reflexivity|]. intros [l|] [h|] a b H; try discriminate. cbn in H. destruct (Rltb l h) eqn:B; [|discriminate]. apply Rltb_true in B.
  inversion H; subst. exists ((l + h) / 2). refine (conj _ (conj _ (conj eq_refl eq_refl))); intros x E; inversion E; subst; lra.
Qed.

Lemma bset_len k v x : length (bset k v x) = length x.
Proof. revert k. induction x; intros [|k]; cbn; auto. Qed.
Lemma bset_same k v x : (k < length x)%nat -> nth k (bset k v x) Emp = v.
Proof. revert k. induction x; intros [|k] H; cbn in *; try lia; auto. apply IHx. lia. Qed.
Lemma bset_other k j v x : j <> k -> nth j (bset k v x) Emp = nth j x Emp.
Proof. revert k j. induction x; intros [|k] [|j] H; cbn; auto; try congruence. Qed.
Lemma inb_bset k v x p : (k < length x)%nat ->
  (inb p (bset k v x) <-> inb p (bset k ALL x) /\ In (nth k p 0) v).
Proof.
  revert k p. induction x as [|i x IH]; intros [|k] p H; cbn in *; try lia; destruct p as [|u p];
    try solve [split; [intros A; inversion A|intros [A _]; inversion A]]; rewrite !inb_cons; cbn [nth].
  - cbn. tauto.
  - rewrite IH by lia. tauto.
Qed.
Lemma inb_bset_id k x p : (k < length x)%nat -> (inb p x <-> inb p (bset k ALL x) /\ In (nth k p 0) (nth k x Emp)).
Proof.
  revert k p. induction x as [|i x IH]; intros [|k] p H; cbn in *; try lia; destruct p as [|u p];
    try solve [split; [intros A; inversion A|intros [A _]; inversion A]]; rewrite !inb_cons; cbn [nth].
  - cbn. tauto.
  - rewrite (IH k) by lia. tauto.
Qed.

(** the box is cut across the component of [largest_diam_index], at a point strictly inside: nothing is lost and the two
    halves share only the cut *)
Theorem C71_bisect : forall bis x x1 x2, ibis_ok bis -> Forall wf x -> m_bisect bis x = Some (x1, x2) ->
  exists r m, extr_diam_index false x = Some r /\ (r < length x)%nat /\
    (exists u v, In u (nth r x Emp) /\ In v (nth r x Emp) /\ u < m < v) /\
    (forall p, inb p x1 <-> inb p x /\ nth r p 0 <= m) /\
    (forall p, inb p x2 <-> inb p x /\ m <= nth r p 0) /\
    (forall p, inb p x <-> inb p x1 \/ inb p x2) /\
    (forall j, j <> r -> nth j x1 Emp = nth j x Emp /\ nth j x2 Emp = nth j x Emp) /\
    length x1 = length x /\ length x2 = length x /\ Forall wf x1 /\ Forall wf x2.
Proof.
  intros bis x x1 x2 Hb W H. unfold m_bisect in H. destruct (extr_diam_index false x) as [r|] eqn:E; [|discriminate].
  destruct (bis (nth r x Emp)) as [[a b]|] eqn:B; [|discriminate]. inversion H; subst x1 x2.
  assert (Lr : (r < length x)%nat).
  { destruct (le_lt_dec (length x) r) as [L|L]; auto. rewrite nth_overflow in B by auto. rewrite (ib_emp _ Hb) in B. discriminate. }
  destruct (nth r x Emp) as [|l h] eqn:N; [rewrite (ib_emp _ Hb) in B; discriminate|].
  destruct (ib_cut _ Hb _ _ _ _ B) as (m & Hl & Hh & -> & ->). exists r, m.
  assert (P1 : forall p, inb p (bset r (Itv l (Some m)) x) <-> inb p x /\ nth r p 0 <= m).
  { intros p. rewrite inb_bset, (inb_bset_id r x) by auto. rewrite N. cbn. destruct l as [l|], h as [h|]; cbn; intuition;
      try (specialize (Hh _ eq_refl); lra). }
  assert (P2 : forall p, inb p (bset r (Itv (Some m) h) x) <-> inb p x /\ m <= nth r p 0).
  { intros p. rewrite inb_bset, (inb_bset_id r x) by auto. rewrite N. cbn. destruct l as [l|], h as [h|]; cbn; intuition;
      try (specialize (Hl _ eq_refl); lra). }
  refine (conj eq_refl (conj Lr (conj _ (conj P1 (conj P2 (conj _ (conj _ (conj (bset_len _ _ _) (conj (bset_len _ _ _) (conj _ _)))))))))).
  - exists (match l with Some l => l | None => m - 1 end), (match h with Some h => h | None => m + 1 end).
    rewrite N. destruct l as [l|], h as [h|]; cbn; try specialize (Hl _ eq_refl); try specialize (Hh _ eq_refl); repeat split; auto; lra.
  - intros p. rewrite P1, P2. destruct (Rle_lt_dec (nth r p 0) m); intuition lra.
  - intros j Hj. split; apply bset_other; auto.
  - clear -W Hl. revert r. induction W; intros [|r]; cbn; constructor; auto. destruct l as [l|]; cbn; auto. specialize (Hl _ eq_refl); lra.
  - clear -W Hh. revert r. induction W; intros [|r]; cbn; constructor; auto. destruct h as [h|]; cbn; auto. specialize (Hh _ eq_refl); lra.
Qed.

Example C71_ex : extr_diam_index false [I2 0 1; I2 0 3; I2 5 8] = Some 1%nat /\ extr_diam_index true [I2 0 2; ALL; I2 0 1] = Some 2%nat /\
  extr_diam_index false [I2 0 1; Itv (Some 3) None; Itv None (Some 4)] = Some 2%nat /\
  m_bisect bis_mid [I2 0 1; I2 0 4] = Some ([I2 0 1; I2 0 2], [I2 0 1; I2 2 4]).
Proof.
  assert (A : forall a b, a < b -> Rltb a b = true) by (intros; apply Rltb_true; auto).
  assert (B : forall a b, b <= a -> Rltb a b = false) by (intros; apply Rltb_false; lra).
  refine (conj _ (conj _ (conj _ _))).
  - cbn. rewrite (A (-1)) by lra. rewrite (A (1 - 0)) by lra. rewrite (B (3 - 0)) by lra. reflexivity.
  - cbn. rewrite (A (1 - 0)) by lra. reflexivity.
  - cbn. rewrite (A (-1)) by lra. cbn. rewrite (A (- (4))) by lra. reflexivity.
  - unfold m_bisect. cbn. rewrite (A (-1)) by lra. rewrite (A (1 - 0)) by lra. cbn. rewrite (A 0) by lra. cbn.
    replace ((0 + 4) / 2) with 2 by lra. reflexivity.
Qed.

(** ** C72: difference and complementary *)
(** [v] is in the interior of [i] *)
Definition interior (v : R) (i : itv) : Prop := exists e, 0 < e /\ forall u, Rabs (u - v) < e -> In u i.
(** the point [p] is in the interior of the box [y] *)
Definition int_box (p : list R) (y : box) : Prop := Forall2 interior p y.
(** What is expected of [Interval::diff] (IBEX) for the both values of [compactness] *)
Record idiff_ok (d : itv -> itv -> itv * itv) : Prop := {
  id_sub : forall x y, wf x -> wf y -> sub (fst (d x y)) x /\ sub (snd (d x y)) x;
  id_cover : forall x y v, wf x -> wf y -> In v x -> In v (fst (d x y)) \/ In v (snd (d x y)) \/ In v y;
  id_first : forall x y, fst (d x y) = Emp -> snd (d x y) = Emp;
  id_int : forall x y v, wf x -> wf y -> In v (fst (d x y)) \/ In v (snd (d x y)) -> ~ interior v y }.

(** an instance: the closed left and right parts *)
Definition idiff_ref (x y : itv) : itv * itv :=
  match y with
  | Emp => (x, Emp)
  | Itv l h =>
      let c1 := match l with None => Emp | Some a => inter x (Itv None (Some a)) end in
      let c2 := match h with None => Emp | Some b => inter x (Itv (Some b) None) end in
      if is_empty c1 then (c2, Emp) else (c1, c2)
  end.
Lemma not_interior_l a h v : v <= a -> ~ interior v (Itv (Some a) h).
Proof. intros H (e & He & Hi). specialize (Hi (v - e / 2)). cbn in Hi. destruct Hi as [Hi _]; [apply Rabs_def1; lra|]. lra. Qed.
Lemma not_interior_r l b v : b <= v -> ~ interior v (Itv l (Some b)).
Proof. intros H (e & He & Hi). specialize (Hi (v + e / 2)). cbn in Hi. destruct Hi as [_ Hi]; [apply Rabs_def1; lra|]. lra. Qed.
Lemma idiff_ref_ok : idiff_ok idiff_ref.
Proof.
  split.
  - intros x y Wx Wy. destruct y as [|l h]; cbn; [split; [apply sub_refl|intros v []]|].
    assert (A : sub (match l with None => Emp | Some a => inter x (Itv None (Some a)) end) x).
    { intros v Hv. destruct l; [|destruct Hv]. apply In_inter in Hv. tauto. }
    assert (B : sub (match h with None => Emp | Some b => inter x (Itv (Some b) None) end) x).
    { intros v Hv. destruct h; [|destruct Hv]. apply In_inter in Hv. tauto. }
    destruct (is_empty _); cbn; split; auto. intros v [].
  - intros x y v Wx Wy Hv. destruct y as [|l h]; cbn; auto.
    assert (Q : In v (match l with None => Emp | Some a => inter x (Itv None (Some a)) end) \/
                In v (match h with None => Emp | Some b => inter x (Itv (Some b) None) end) \/ In v (Itv l h)).
    { destruct l as [a|], h as [b|].
      - destruct (Rle_lt_dec v a); [left; apply In_inter; cbn; auto|]. destruct (Rle_lt_dec b v); [right; left; apply In_inter; cbn; auto|].
        right; right; cbn; lra.
      - destruct (Rle_lt_dec v a); [left; apply In_inter; cbn; auto|]. right; right; cbn; split; auto; lra.
      - destruct (Rle_lt_dec b v); [right; left; apply In_inter; cbn; auto|]. right; right; cbn; split; auto; lra.
      - right; right; cbn; auto. }
    destruct (is_empty (match l with None => Emp | Some a => inter x (Itv None (Some a)) end)) eqn:E; cbn; [|tauto].
    apply is_empty_true in E. rewrite E in Q. cbn [In] in Q. tauto.
  - intros x y. destruct y as [|l h]; cbn; auto.
    destruct (is_empty (match l with None => Emp | Some a => inter x (Itv None (Some a)) end)) eqn:E; cbn; auto.
    intros H. apply is_empty_false in E. congruence.
  - intros x y v Wx Wy. destruct y as [|l h].
    + intros _ (e & He & Hi). apply (Hi v). rewrite Rminus_eq_0, Rabs_R0. auto.
    + assert (A : In v (match l with None => Emp | Some a => inter x (Itv None (Some a)) end) -> ~ interior v (Itv l h)).
      { destruct l as [a|]; [|intros []]. intros H. apply In_inter in H. apply not_interior_l. cbn in H. tauto. }
      assert (B : In v (match h with None => Emp | Some b => inter x (Itv (Some b) None) end) -> ~ interior v (Itv l h)).
      { destruct h as [b|]; [|intros []]. intros H. apply In_inter in H. apply not_interior_r. cbn in H. tauto. }
      unfold idiff_ref. destruct (is_empty _); cbn [fst snd]; [|tauto]. intros [H|H]; [auto|destruct H].
Qed.

Section Diff.
  Variable d : itv -> itv -> itv * itv.
  Hypothesis Hd : idiff_ok d.

  (** the rest [x] of the box after the components [pre], which are already those of [z] *)
  Lemma loop_in : forall x y pre, Forall wf x -> Forall wf y -> length x = length y -> forall b p,
    List.In b (diff_loop d pre x y (map2 inter x y)) -> inb p b -> exists x' , length x' = length x /\ Forall2 sub x' x /\
      exists j, (j < length x)%nat /\ b = pre ++ x' /\ (forall v, In v (nth j x' Emp) -> ~ interior v (nth j y Emp)).
  Proof.
    induction x as [|xi x IH]; intros y pre Wx Wy L b p Hb Hp; destruct y as [|yi y]; cbn in L; try lia; cbn in Hb; [destruct Hb|].
    inversion Wx as [|? ? Wxi Wx']; subst. inversion Wy as [|? ? Wyi Wy']; subst.
    destruct (id_sub _ Hd xi yi Wxi Wyi) as [S1 S2]. pose proof (id_int _ Hd xi yi) as I2.
    destruct (d xi yi) as [c1 c2]. cbn [fst snd] in *.
    assert (RR : Forall2 sub x x) by (clear; induction x; constructor; auto; apply sub_refl).
    assert (Z : forall pre', List.In b (diff_loop d (pre ++ [pre']) x y (map2 inter x y)) -> sub pre' xi ->
       exists x', length x' = S (length x) /\ Forall2 sub x' (xi :: x) /\
         exists j, (j < S (length x))%nat /\ b = pre ++ x' /\ (forall v, In v (nth j x' Emp) -> ~ interior v (nth j (yi :: y) Emp))).
    { intros pre' Hb' SS. destruct (IH y (pre ++ [pre']) Wx' Wy' ltac:(lia) b p Hb' Hp) as (x' & L' & F & j & Lj & -> & Hj).
      exists (pre' :: x'). refine (conj _ (conj _ _)); [cbn; lia|constructor; auto|]. exists (S j). rewrite <- app_assoc. cbn. refine (conj _ (conj eq_refl Hj)). lia. }
    destruct (negb (is_empty c1)) eqn:E1.
    - cbn in Hb. destruct Hb as [<-|Hb].
      + exists (c1 :: x). refine (conj eq_refl (conj _ _)); [constructor; auto|]. exists 0%nat. refine (conj _ (conj eq_refl _)); [cbn; lia|]. cbn. intros v Hv. apply I2; auto.
      + apply in_app_or in Hb. destruct Hb as [Hb|Hb].
        * destruct (negb (is_empty c2)); [|destruct Hb]. destruct Hb as [<-|[]].
          exists (c2 :: x). refine (conj eq_refl (conj _ _)); [constructor; auto|]. exists 0%nat. refine (conj _ (conj eq_refl _)); [cbn; lia|]. cbn. intros v Hv. apply I2; auto.
        * apply (Z (inter xi yi)); auto. intros v Hv. apply In_inter in Hv. tauto.
    - apply (Z xi); auto. apply sub_refl.
  Qed.

  Lemma loop_cover : forall x y pre pp p, Forall wf x -> Forall wf y -> length x = length y -> inb pp pre -> inb p x ->
    inb p y \/ exists b, List.In b (diff_loop d pre x y (map2 inter x y)) /\ inb (pp ++ p) b.
  Proof.
    induction x as [|xi x IH]; intros y pre pp p Wx Wy L Hpre Hp; destruct y as [|yi y]; cbn in L; try lia; cbn; [left; inversion Hp; constructor|].
    inversion Wx as [|? ? Wxi Wx']; subst. inversion Wy as [|? ? Wyi Wy']; subst. destruct p as [|v p]; [inversion Hp|]. apply inb_cons in Hp. destruct Hp as [Hv Hp].
    pose proof (id_cover _ Hd xi yi v Wxi Wyi Hv) as C. pose proof (id_first _ Hd xi yi) as F. destruct (d xi yi) as [c1 c2]. cbn [fst snd] in *.
    assert (Z : forall i, In v i -> In v yi -> (inb (v :: p) (yi :: y)) \/ exists b, List.In b (diff_loop d (pre ++ [i]) x y (map2 inter x y)) /\ inb (pp ++ v :: p) b).
    { intros i Hi Hy. destruct (IH y (pre ++ [i]) (pp ++ [v]) p) as [Q|(b & Hb & Q)]; auto; try lia.
      - apply inb_app; auto. repeat constructor; auto.
      - left. apply inb_cons; auto.
      - right. exists b. split; auto. rewrite <- app_assoc in Q. exact Q. }
    destruct (is_empty c1) eqn:E1; cbn [negb].
    - apply is_empty_true in E1. subst c1. rewrite (F eq_refl) in C. cbn in C. apply Z; auto. tauto.
    - destruct C as [C|[C|C]].
      + right. exists (pre ++ c1 :: x). split; [left; auto|]. apply inb_app; auto. apply inb_cons; auto.
      + right. exists (pre ++ c2 :: x). split; [|apply inb_app; auto; apply inb_cons; auto]. right. apply in_or_app. left.
        assert (E2 : is_empty c2 = false) by (destruct c2; auto; destruct C). rewrite E2. left. auto.
      + destruct (Z (inter xi yi)) as [Q|(b & Hb & Q)]; auto; [apply In_inter; auto|].
        right. exists b. split; auto. right. apply in_or_app. right. auto.
  Qed.
End Diff.

Lemma flat_dim_spec x : forall y, length x = length y -> flat_dim (map2 inter x y) x = true ->
  exists j, (j < length x)%nat /\ is_degenerated (inter (nth j x Emp) (nth j y Emp)) = true /\ is_degenerated (nth j x Emp) = false.
Proof.
  induction x as [|i x IH]; intros y L H; destruct y as [|k y]; cbn in *; try lia; try discriminate.
  apply orb_true_iff in H. destruct H as [H|H].
  - apply andb_true_iff in H. destruct H as [A B]. exists 0%nat. cbn. refine (conj _ (conj A _)); [lia|]. apply negb_true_iff; auto.
  - destruct (IH y) as (j & Lj & A & B); auto. exists (S j). cbn. refine (conj _ (conj A B)). lia.
Qed.
(** if the intersection is flat and [x] is not, no point of [x] is interior to [y] *)
Lemma flat_int x y v : wf x -> is_degenerated (inter x y) = true -> is_degenerated x = false -> In v x -> ~ interior v y.
Proof.
  intros W Dz Dx Hv (e & He & Hi).
  assert (Q : exists u, In u x /\ u <> v /\ Rabs (u - v) < e).
  { destruct x as [|[a|] [b|]]; cbn in *; try discriminate.
    - apply Reqb_false in Dx. destruct (Rlt_dec v b).
      + exists (Rmin b (v + e / 2)). unfold Rmin. destruct (Rle_dec b (v + e / 2)); refine (conj _ (conj _ _)); try lra; apply Rabs_def1; lra.
      + exists (Rmax a (v - e / 2)). unfold Rmax. destruct (Rle_dec a (v - e / 2)); refine (conj _ (conj _ _)); try lra; apply Rabs_def1; lra.
    - exists (v + e / 2). refine (conj _ (conj _ _)); try lra. apply Rabs_def1; lra.
    - exists (v - e / 2). refine (conj _ (conj _ _)); try lra. apply Rabs_def1; lra.
    - exists (v - e / 2). refine (conj _ (conj _ _)); try lra; auto. apply Rabs_def1; lra. }
  destruct Q as (u & Hu & N & B). assert (Iu : In u (inter x y)) by (apply In_inter; auto).
  assert (Iv : In v (inter x y)) by (apply In_inter; split; auto; apply Hi; rewrite Rminus_eq_0, Rabs_R0; auto).
  destruct (inter x y) as [|[a|] [b|]]; cbn in *; try discriminate; [tauto|]. apply Reqb_true in Dz. lra.
Qed.

Lemma Forall2_nth {A B} (P : A -> B -> Prop) l m da db j : Forall2 P l m -> (j < length m)%nat -> P (nth j l da) (nth j m db).
Proof. intros H. revert j. induction H; intros [|j] L; cbn in *; try lia; auto. apply IHForall2. lia. Qed.
Lemma int_in v i : interior v i -> In v i.
Proof. intros (e & He & Hi). apply Hi. rewrite Rminus_eq_0, Rabs_R0. auto. Qed.
Lemma int_box_in p y : int_box p y -> inb p y.
Proof. intros H. induction H; constructor; auto using int_in. Qed.

(** the pieces are parts of x, cover x minus y, and have no point in the interior of y *)
Theorem C72_diff : forall idiff, (forall c, idiff_ok (idiff c)) ->
  forall c x y, Forall wf x -> Forall wf y -> length x = length y -> x <> [] ->
  (forall b p, List.In b (m_diff idiff c x y) -> inb p b -> inb p x /\ ~ int_box p y) /\
  (forall p, inb p x -> ~ inb p y -> exists b, List.In b (m_diff idiff c x y) /\ inb p b).
Proof.
  intros idiff Hd c x y Wx Wy L NE. unfold m_diff. destruct (m_eqb y x) eqn:E.
  { pose proof (proj1 (C70_eq y x Wy Wx (eq_sym L)) E) as Q. split.
    - intros b p [<-|[]] Hp. apply map_emp in Hp. congruence.
    - intros p Hx Hy. destruct Hy. apply Q; auto. }
  destruct (m_is_empty (m_inter x y)) eqn:Ez.
  { split.
    - intros b p [<-|[]] Hp. split; auto. intros H. apply int_box_in in H.
      assert (Q : inb p (m_inter x y)) by (apply C70_inter; auto). apply empty_false in Q. congruence.
    - intros p Hx Hy. exists x. split; [left|]; auto. }
  assert (Nz : m_inter x y = map2 inter x y).
  { unfold m_inter in *. destruct (m_is_empty x) eqn:Ex; [congruence|]. destruct (m_is_empty y); auto.
    destruct x; [congruence|]. discriminate. }
  rewrite Nz. destruct (c && flat_dim (map2 inter x y) x) eqn:F.
  { apply andb_true_iff in F. destruct F as [_ F]. apply flat_dim_spec in F; auto. destruct F as (j & Lj & Dz & Dx). split.
    - intros b p [<-|[]] Hp. split; auto. intros H. unfold int_box in H.
      apply (flat_int (nth j x Emp) (nth j y Emp) (nth j p 0)); auto.
      + rewrite Forall_forall in Wx. apply Wx. apply nth_In; auto.
      + apply (Forall2_nth In p x); auto.
      + apply (Forall2_nth interior p y); auto. lia.
    - intros p Hx Hy. exists x. split; [left|]; auto. }
  split.
  - intros b p Hb Hp. destruct (loop_in (idiff c) (Hd c) x y [] Wx Wy L b p Hb Hp) as (x' & L' & S & j & Lj & -> & Hj). cbn in Hp. split.
    + eapply inb_sub; eauto.
    + intros H. apply (Hj (nth j p 0)); [apply (Forall2_nth In p x'); auto; lia|apply (Forall2_nth interior p y); auto; lia].
  - intros p Hx Hy. destruct (loop_cover (idiff c) (Hd c) x y [] [] p Wx Wy L (Forall2_nil _) Hx) as [Q|(b & Hb & Q)]; [tauto|eauto].
Qed.

Theorem C72_complementary : forall idiff, (forall c, idiff_ok (idiff c)) -> forall x, Forall wf x -> x <> [] ->
  (forall b p, List.In b (m_complementary idiff x) -> inb p b -> ~ int_box p x) /\
  (forall p, length p = length x -> ~ inb p x -> exists b, List.In b (m_complementary idiff x) /\ inb p b).
Proof.
  intros idiff Hd x W NE. unfold m_complementary.
  assert (L : length (map (fun _ => ALL) x) = length x) by apply map_length.
  assert (WA : Forall wf (map (fun _ => ALL) x)) by (clear; induction x; constructor; auto; exact I).
  assert (NA : map (fun _ => ALL) x <> []) by (destruct x; [congruence|discriminate]).
  destruct (C72_diff idiff Hd true _ x WA W L NA) as [A B]. split.
  - intros b p Hb Hp. apply (A b p); auto.
  - intros p Lp Hp. apply B; auto. clear -Lp. revert p Lp. induction x; intros [|v p] Lp; cbn in *; try lia; constructor; [split; exact I|apply IHx; lia].
Qed.

Example C72_ex : m_diff (fun _ => idiff_ref) true [I2 0 4; I2 0 4] [I2 1 2; I2 3 5] =
  [[I2 0 1; I2 0 4]; [I2 2 4; I2 0 4]; [I2 1 2; I2 0 3]].
Proof.
  unfold m_diff, m_eqb, m_inter, idiff_ref, I2; cbn. reval. reflexivity.
Qed.
Print Assumptions C71_largest.
Print Assumptions C71_bisect.
Print Assumptions C72_diff.
