(** * C55 (continued): thick boxes *)

From Coq Require Import Reals Lra Lia Bool List.
Import ListNotations.
From Verif Require Import Itv Static PropsStatic Paving PropsSivia Concrete Thick PropsThickBool PropsThickItv.
Open Scope R_scope.

(** ** Proofs *)
Lemma fold_and {A} (f : A -> bool) l : forall r, fold_left (fun r p => r && f p) l r = true <-> r = true /\ forall p, List.In p l -> f p = true.
Proof.
  induction l as [|p l IH]; intros r; cbn; [intuition|]. rewrite IH, andb_true_iff. split.
  - intros [[A' B] C]. split; auto. intros q [<-|K]; auto.
  - intros [A' B]. auto 10.
Qed.
Lemma fold_or {A} (f : A -> bool) l : forall r, fold_left (fun r p => r || f p) l r = true <-> r = true \/ exists p, List.In p l /\ f p = true.
Proof.
  induction l as [|p l IH]; intros r; cbn; [split; [auto|intros [H|(q & [] & _)]; auto]|]. rewrite IH, orb_true_iff. split.
  - intros [[H|H]|(q & H & K)]; eauto 6.
  - intros [H|(q & [<-|H] & K)]; eauto 6.
Qed.
Lemma inb_len p b : inb p b -> length p = length b.
Proof. induction 1; cbn; auto. Qed.
Lemma selb_cons a t s : selb (a :: t) s -> exists x y s', s = (x, y) :: s' /\ sel a x y /\ selb t s'.
Proof. intros H. inversion H as [|? [x y] ? s' A B]; subst. exists x, y, s'. auto. Qed.
Lemma bnd_ne x y : x <= y -> b_is_empty (bnd x y :: []) = false.
Proof. intros H. cbn. unfold bnd, mk. destruct (Rle_dec x y); [reflexivity|contradiction]. Qed.

(** every component compared with the thick interval of a bounded interval *)
Lemma of_sel_full l h : l <= h -> sel (mkT (pt l) (pt h)) l h.
Proof. intros. repeat split; cbn; lra. Qed.

Theorem C55_box_subset : forall a y s, length a = length y -> tb_is_subset a y = true -> selb a s -> bsub (boxof s) y.
Proof.
  intros a y s L H. apply fold_and in H as [_ H]. revert y s L H.
  induction a as [|t a IH]; intros [|y0 y] s L H Hs; try discriminate.
  - inversion Hs; subst. intros p Hp. exact Hp.
  - apply selb_cons in Hs as (x & z & s' & -> & S0 & Ss). intros p Hp. inversion Hp as [|p0 ? ps ? P0 Ps]; subst.
    constructor.
    + pose proof (H (t, y0) (or_introl eq_refl)) as K. cbn in K. cbn in P0.
      destruct (of_case y0) as [(l & h & -> & Et & Lh)|Et]; rewrite Et in K; [|unfold t_is_subset, ub_sub_le0 in K; cbn in K; discriminate].
      apply (C55_subset _ _ K _ _ _ _ S0 (of_sel_full _ _ Lh)) in P0. apply In_bnd in P0. cbn. lra.
    + eapply IH; eauto. intros q Hq. apply H. right; auto.
Qed.
Theorem C55_box_intersects : forall a y s, length a = length y -> tb_intersects a y = true -> selb a s -> bmeets (boxof s) y.
Proof.
  intros a y s L H. apply fold_and in H as [_ H]. revert y s L H.
  induction a as [|t a IH]; intros [|y0 y] s L H Hs; try discriminate.
  - inversion Hs; subst. exists []. split; constructor.
  - apply selb_cons in Hs as (x & z & s' & -> & S0 & Ss).
    destruct (IH y s') as (p & P & Q); auto. { intros q Hq. apply H. right; auto. }
    pose proof (H (t, y0) (or_introl eq_refl)) as K. cbn in K.
    destruct (of_case y0) as [(l & h & -> & Et & Lh)|Et]; rewrite Et in K; [|unfold t_intersects, ub_sub_le0 in K; cbn in K; discriminate].
    destruct (C55_intersects _ _ K _ _ _ _ S0 (of_sel_full _ _ Lh)) as (w & P0 & Q0). exists (w :: p).
    split; constructor; auto. apply In_bnd in Q0. cbn. lra.
Qed.
(** a box that shares no bound with [y] *)
Definition off (s : list (R * R)) (y : box) : Prop :=
  Forall2 (fun p i => match i with Itv (Some l) (Some h) => fst p <> l /\ snd p <> h | _ => True end) s y.
Theorem C55_box_not_subset_partial : forall a y s, length a = length y -> tb_is_not_subset a y = true -> selb a s -> off s y ->
  ~ bsub (boxof s) y.
Proof.
  intros a y s L H Hs Ho B. apply fold_or in H as [H|((t, i) & H & K)]; [discriminate|]. cbn in K.
  assert (Pt : inb (map fst s) (boxof s) /\ inb (map snd s) (boxof s)).
  { clear -Hs. induction Hs as [|t [x z] a s (A & C & D) H IH]; [split; constructor|]. destruct IH. cbn in D.
    split; constructor; auto; apply In_bnd; cbn; lra. }
  destruct Pt as [P Q]. apply B in P. apply B in Q. clear B.
  revert y s L H Hs Ho P Q. induction a as [|t' a IH]; intros [|y0 y] s L H Hs Ho P Q; try discriminate; [destruct H|].
  apply selb_cons in Hs as (x & z & s' & -> & S0 & Ss). inversion Ho as [|? ? ? ? O0 Os]; subst.
  inversion P as [|? ? ? ? P0 Ps]; subst. inversion Q as [|? ? ? ? Q0 Qs]; subst.
  destruct H as [E|H]; [|eapply IH; eauto]. injection E as -> ->.
  destruct (of_case i) as [(l & h & -> & Et & Lh)|Et]; rewrite Et in K.
  - apply (C55_not_subset_partial _ _ K _ _ _ _ S0 (of_sel_full _ _ Lh)). cbn in *. destruct O0. unfold inner. lra.
  - unfold t_is_not_subset, ub_sub_le0 in K. cbn in K. destruct (tlb t) as [|? [?|]]; cbn in K; discriminate.
Qed.
(** [is_subset] between thick boxes never answers yes. *)
Theorem C55_box_subset_t_refuted : exists a b s r, selb a s /\ selb b r /\ tb_is_subset_t a b = false /\
  forall s r, selb a s -> selb b r -> bsub (boxof s) (boxof r).
Proof.
  exists (tb_of [bnd 0 1]), (tb_of [bnd 0 2]), [(0, 1)], [(0, 2)].
  refine (conj _ (conj _ (conj eq_refl _))).
  - constructor; [apply of_bnd; cbn; lra|constructor].
  - constructor; [apply of_bnd; cbn; lra|constructor].
  - intros s r A B. apply selb_cons in A as (x & y & s' & -> & A & A'). apply selb_cons in B as (u & v & r' & -> & B & B').
    apply of_only in A as (-> & -> & _). apply of_only in B as (-> & -> & _). inversion A'; inversion B'; subst.
    intros p Hp. inversion Hp as [|? ? ? ? P0 Ps]; subst. inversion Ps; subst. constructor; [|constructor].
    cbn in P0. apply In_bnd in P0. apply In_bnd. cbn. lra.
Qed.
Theorem C55_box_subset_t_never : forall a b, tb_is_subset_t a b = false.
Proof.
  intros a b. unfold tb_is_subset_t. generalize (combine a b) as l. induction l as [|p l IH]; auto.
Qed.

(** *** Superset and intersection *)
Theorem C55_box_superset : forall a s, selb a s -> bsub (boxof s) (tb_superset a).
Proof.
  induction 1 as [|t [x y] a s H K IH]; intros p Hp; [exact Hp|]. inversion Hp as [|? ? ? ? P0 Ps]; subst.
  constructor; [eapply C55_superset; eauto|apply IH; auto].
Qed.
Definition sinter (s r : list (R * R)) : list (R * R) := map (fun q => (Rmax (fst (fst q)) (fst (snd q)), Rmin (snd (fst q)) (snd (snd q)))) (combine s r).
Definition twf (a : tbox) : Prop := Forall (fun t => wf (tlb t) /\ wf (tub t)) a.
Theorem C55_box_inter_partial : forall a b s r, twf a -> twf b -> Forall2 capped a b -> selb a s -> selb b r ->
  Forall (fun p => fst p <= snd p) (sinter s r) -> exists c, tb_inter a b = Some c /\ selb c (sinter s r).
Proof.
  intros a b s r Wa Wb Cp Ha Hb Hi. unfold tb_inter.
  assert (L : length a = length b) by (clear -Cp; induction Cp; cbn; auto). rewrite (proj2 (Nat.eqb_eq _ _) L).
  assert (K : selb (map (fun p => t_inter (fst p) (snd p)) (combine a b)) (sinter s r)).
  { clear L. revert b s r Wa Wb Cp Ha Hb Hi. induction a as [|t a IH]; intros b s r Wa Wb Cp Ha Hb Hi.
    - inversion Cp; subst. inversion Ha; subst. constructor.
    - inversion Cp as [|? u ? b' C0 Cs]; subst. apply selb_cons in Ha as (x & y & s' & -> & S0 & Ss).
      apply selb_cons in Hb as (x' & y' & r' & -> & R0 & Rs). inversion Wa as [|? ? [W1 W2] Wa']; subst. inversion Wb as [|? ? [W3 W4] Wb']; subst.
      inversion Hi as [|? ? I0 Is]; subst. cbn. constructor; [|apply IH; auto]. apply C55_inter_partial; auto. }
  cbv zeta. destruct (existsb t_is_empty _) eqn:E; [|eauto]. exfalso. apply existsb_exists in E as (t & Ht & Et).
  clear -K Ht Et. remember (map (fun p => t_inter (fst p) (snd p)) (combine a b)) as lt eqn:Elt; clear Elt; induction K as [|t' p l sx (A & _) K' IH]; [contradiction|]. destruct Ht as [->|Ht]; auto.
  unfold t_is_empty in Et. destruct (tlb t); [contradiction|discriminate].
Qed.

(** *** is_inside *)
Lemma bsup_ne a s : a <> [] -> selb a s -> b_is_empty (tb_superset a) = false.
Proof.
  intros N H. destruct H as [|t [x y] a s H K]; [congruence|]. cbn. pose proof (super_in t x y x H) as P.
  destruct (t_superset t); [|reflexivity]. exfalso. apply P. destruct H as (_ & _ & H). cbn in *. lra.
Qed.
Lemma sub_pts a y : length a = length y -> b_is_empty a = false -> b_is_subset a y = true -> bsub a y.
Proof.
  intros L E H. unfold b_is_subset in H. rewrite E in H. destruct (b_is_empty y); [discriminate|].
  clear E. revert y L H. induction a as [|i a IH]; intros [|j y] L H p Hp; try discriminate; [exact Hp|].
  cbn in H. apply andb_true_iff in H as [H K]. inversion Hp as [|? ? ? ? P0 Ps]; subst. constructor.
  - apply (is_subset_sub _ _ H); auto.
  - eapply IH; eauto.
Qed.
Lemma meets_pts a y : b_intersects a y = false -> ~ bmeets a y.
Proof.
  intros H (p & P & Q). unfold b_intersects in H.
  assert (E1 : b_is_empty a = false) by (destruct P as [|x i ? ? P0]; auto; destruct i; [contradiction|reflexivity]).
  assert (E2 : b_is_empty y = false) by (destruct Q as [|x i ? ? P0]; auto; destruct i; [contradiction|reflexivity]).
  rewrite E1, E2 in H. cbn [orb] in H. clear E1 E2. revert y Q H. induction P as [|x i p a P0 P IH]; intros y Q H.
  - inversion Q; subst. cbn in H. discriminate.
  - inversion Q as [|? j ? y' Q0 Qs]; subst. cbn in H. apply andb_false_iff in H as [H|H]; [|eapply IH; eauto].
    apply negb_false_iff in H. assert (T : In x (inter i j)) by (apply In_inter; auto). destruct (inter i j); [contradiction|discriminate].
Qed.
Lemma boxof_pt s a : selb a s -> inb (map fst s) (boxof s).
Proof.
  induction 1 as [|t [x y] a s (A & B & C) K IH]; constructor; auto. apply In_bnd. cbn in *. lra.
Qed.
Theorem C55_box_inside_partial : forall a y s r, a <> [] -> length a = length y -> selb a s -> bstat (boxof s) y r ->
  off s y \/ (tb_is_inside a y <> TMaybe /\ tb_is_inside a y <> TMaybeOut) -> sem (tb_is_inside a y) r.
Proof.
  intros a y s r N L Hs H Ho. pose proof (bsup_ne _ _ N Hs) as Ne. pose proof (C55_box_superset _ _ Hs) as Sup. pose proof (boxof_pt _ _ Hs) as Pt.
  assert (L' : length (tb_superset a) = length y) by (unfold tb_superset; rewrite map_length; auto).
  revert Ho. unfold tb_is_inside. destruct (b_is_subset (tb_superset a) y) eqn:E1.
  { intros _. assert (K : bsub (boxof s) y) by (intros p Hp; apply (sub_pts _ _ L' Ne E1); auto).
    destruct r; cbn in *; auto; exfalso; [apply H; exists (map fst s); split; auto|destruct H; auto]. }
  destruct (b_intersects (tb_superset a) y) eqn:E2; cbn [negb].
  2:{ intros _. assert (K : ~ bmeets (boxof s) y). { intros (p & P & Q). apply (meets_pts _ _ E2). exists p. auto. }
      destruct r; cbn in *; auto; exfalso; [apply K, H|]. apply K. exists (map fst s). split; auto. }
  destruct (tb_intersects a y) eqn:B1; destruct (tb_is_not_subset a y) eqn:B2; cbn [andb negb]; intros Ho.
  - destruct Ho as [Ho|[Ho _]]; [|congruence]. destruct r; cbn; auto; exfalso; cbn in H.
    + apply H. eapply C55_box_intersects; eauto.
    + eapply C55_box_not_subset_partial; eauto.
  - destruct r; cbn; auto; exfalso; cbn in H. apply H. eapply C55_box_intersects; eauto.
  - destruct Ho as [Ho|[_ Ho]]; [|congruence]. destruct r; cbn; auto; exfalso; cbn in H. eapply C55_box_not_subset_partial; eauto.
  - exact I.
Qed.

(** ** Examples *)
(** [[1,2],[3,4]]: the intervals [x,y] with 1<=x<=2, 3<=y<=4 *)
Definition exT : titv := mkT (I2 1 2) (I2 3 4).
Example C55_ex_new : t_new (I2 1 2) (I2 3 4) = exT /\ sel exT 1.5 3.5 /\ full exT.
Proof.
  refine (conj _ (conj _ _)).
  - unfold t_new, I2. cbn. reval; try (exfalso; lra); reflexivity.
  - unfold sel, exT, I2; cbn. lra.
  - unfold full, exT, I2; cbn. refine (conj _ (conj _ (conj eq_refl (conj eq_refl (conj _ (conj _ _)))))); try lra.
    + intros x Hx. exists 3. unfold sel; cbn. lra.
    + intros y Hy. exists 2. unfold sel; cbn. lra.
    + exists 1, 3. unfold sel; cbn. lra.
Qed.
Example C55_ex_cmp : t_is_subset exT (t_of (I2 0 5)) = true /\ t_intersects exT (t_of (I2 (5/2) 6)) = true /\
  t_is_not_subset exT (t_of (I2 2 6)) = true.
Proof.
  unfold t_is_subset, t_intersects, t_is_not_subset, t_of, t_new, exT, I2; cbn.
  refine (conj _ (conj _ _)); reval; try (exfalso; lra); reflexivity.
Qed.
Example C55_ex_inter : capped exT (mkT (I2 0 0) (I2 3 3)) /\ sel (t_inter exT (mkT (I2 0 0) (I2 3 3))) 1.5 3.
Proof.
  assert (C : capped exT (mkT (I2 0 0) (I2 3 3))) by (left; intros x; unfold exT, I2, T_BIG; cbn; lra).
  split; [exact C|]. assert (K : sel (t_inter exT (mkT (I2 0 0) (I2 3 3))) (Rmax 1.5 0) (Rmin 3.5 3)).
  2:{ rewrite (Rmax_left 1.5 0), (Rmin_right 3.5 3) in K by lra. exact K. }
  apply C55_inter_partial; auto; unfold exT, sel, I2; cbn; try lra. unfold Rmax, Rmin; repeat destruct (Rle_dec _ _); lra.
Qed.
Example C55_ex_inside : t_is_inside exT (I2 0 5) = TIn /\ t_is_inside exT (I2 7 8) = TOut /\ t_is_inside exT (I2 (5/2) 6) = TMaybe /\
  istat (bnd 1.5 3.5) (I2 (5/2) 6) sPen.
Proof.
  unfold t_is_inside, t_superset, t_intersects, t_is_not_subset, intersects, inter, t_of, t_new, exT, I2, is_subset, max_lo, min_hi, lo_leb, hi_leb; cbn.
  refine (conj _ (conj _ (conj _ _))); try (reval; try (exfalso; lra); unfold Rmax, Rmin, mk; reval; try (exfalso; lra); reflexivity).
  split.
  - exists 3. split; [apply In_bnd; lra|cbn; lra].
  - intros H. specialize (H 1.5). cbn in H. unfold bnd, mk in H. destruct (Rle_dec 1.5 3.5); cbn in H; lra.
Qed.
Example C55_ex_box : let a := [exT; exT] in let s := [(1.5, 3.5); (2, 3)] in
  selb a s /\ tb_is_subset a [I2 0 5; I2 1 4] = true /\ tb_intersects a [I2 0 5; I2 (5/2) 6] = true /\
  off s [I2 0 5; I2 1 4] /\ twf a /\ Forall2 capped a a /\ Forall (fun p => fst p <= snd p) (sinter s s).
Proof.
  cbv zeta. unfold selb, off, twf. refine (conj _ (conj _ (conj _ (conj _ (conj _ (conj _ _)))))).
  - repeat apply Forall2_cons; try apply Forall2_nil; unfold sel, exT, I2; cbn; lra.
  - unfold tb_is_subset, t_is_subset, t_of, t_new, exT, I2; cbn. reval; try (exfalso; lra); reflexivity.
  - unfold tb_intersects, t_intersects, t_of, t_new, exT, I2; cbn. reval; try (exfalso; lra); reflexivity.
  - repeat apply Forall2_cons; try apply Forall2_nil; unfold I2; cbn; lra.
  - repeat apply Forall_cons; try apply Forall_nil; unfold exT, I2; cbn; lra.
  - repeat apply Forall2_cons; try apply Forall2_nil; left; intros x; unfold exT, I2, T_BIG; cbn; lra.
  - repeat apply Forall_cons; try apply Forall_nil; cbn; unfold Rmax, Rmin; repeat destruct (Rle_dec _ _); lra.
Qed.

Print Assumptions C55_subset_complete.
Print Assumptions C55_inter_partial.
Print Assumptions C55_inter_refuted.
Print Assumptions C55_box_inside_partial.
