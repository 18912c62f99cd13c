(** * C114: volume of tubes, thickest, widest and steepest slices *)

From Coq Require Import Reals Lra Bool List Arith ZArith Lia Psatz.
From Coquelicot Require Import Coquelicot.
Import ListNotations.
From Verif Require Import Itv Arith Tube TubeSpec TubeFacts TubeOps TubeOpsFacts Trajectory Concrete DynSpec Integral PropsIntegral PropsTube Measure.
Open Scope R_scope.

(** ** Specification *)
(** [w] bounds the distance between two values, [None] is +oo *)
Definition at_most (d : R) (w : option R) : Prop := match w with Some w => d <= w | None => True end.
Definition wle (a b : option R) : Prop := match b, a with None, _ => True | Some b, Some a => a <= b | Some _, None => False end.
(** the width of an interval: the least upper bound of the distances between two of its values, 0 when there is none *)
Definition is_width (i : itv) (w : option R) : Prop :=
  (forall u v, In u i -> In v i -> at_most (Rabs (u - v)) w) /\
  (forall w', 0 <= w' -> (forall u v, In u i -> In v i -> Rabs (u - v) <= w') -> wle w (Some w')).

Lemma wd_width i : wf i -> is_width i (wd i).
Proof.
  destruct i as [|[l|] [h|]]; cbn; intros W; split; cbn; auto; try tauto.
  - intros u v Hu Hv. apply Rabs_le. lra.
  - intros w' _ H. assert (K := H h l ltac:(lra) ltac:(lra)). rewrite Rabs_right in K; lra.
  - intros w' Hw H. assert (K := H (l + w' + 1) l ltac:(lra) ltac:(lra)). rewrite Rabs_right in K; lra.
  - intros w' Hw H. assert (K := H h (h - w' - 1) ltac:(lra) ltac:(lra)). rewrite Rabs_right in K; lra.
  - intros w' Hw H. assert (K := H (w' + 1) 0 ltac:(tauto) ltac:(tauto)). rewrite Rabs_right in K; lra.
Qed.
Lemma width_uniq i w w' : (forall a, w = Some a -> 0 <= a) -> (forall a, w' = Some a -> 0 <= a) -> is_width i w -> is_width i w' -> w = w'.
Proof.
  intros P P' [A B] [A' B']. destruct w as [w|], w' as [w'|]; auto.
  - assert (K := B w' (P' _ eq_refl) A'). assert (K' := B' w (P _ eq_refl) A). cbn in *. f_equal. lra.
  - destruct (B' w (P _ eq_refl) A).
  - destruct (B w' (P' _ eq_refl) A').
Qed.
Lemma wd_pos i w : wf i -> wd i = Some w -> 0 <= w.
Proof. destruct i as [|[l|] [h|]]; cbn; intros W E; inversion E; lra. Qed.
Lemma wd_none i : wd i = None <-> is_unbounded i = true.
Proof. destruct i as [|[l|] [h|]]; cbn; split; congruence. Qed.
Lemma wgt_false a b : wgt a b = false -> wle a b.
Proof. destruct a as [a|], b as [b|]; cbn; auto; try discriminate. intros H. apply Rltb_false in H. lra. Qed.
Lemma wgt_true a b : wgt a b = true -> wle b a /\ a <> b.
Proof. destruct a as [a|], b as [b|]; cbn; try discriminate; [|split; [auto|discriminate]]. intros H. apply Rltb_true in H. split; [lra|]. intros E; inversion E; lra. Qed.
Lemma wle_trans a b c : wle a b -> wle b c -> wle a c.
Proof. destruct a, b, c; cbn; try tauto; lra. Qed.
Lemma wle_refl a : wle a a.
Proof. destruct a; cbn; auto; lra. Qed.
Lemma wle_anti a b : wle a b -> wle b a -> a = b.
Proof. destruct a, b; cbn; try tauto. intros. f_equal. lra. Qed.
Lemma at_most_le d a b : at_most d a -> wle a b -> at_most d b.
Proof. destruct a, b; cbn; try tauto; lra. Qed.

(** ** Trajectories with chosen values inside the slices *)
Fixpoint sel (c : slice -> R) (f : R -> R) (x : tube) (t : R) : R :=
  match x with
  | [] => f t
  | s :: r => if Rltb (s_lb s) t && Rltb t (s_ub s) then c s else sel c f r t
  end.
Lemma sel_out c f x : forall a b t, chain_from a x b -> (t <= a \/ b <= t \/ exists s, List.In s x /\ (t = s_lb s \/ t = s_ub s)) -> sel c f x t = f t.
Proof.
  induction x as [|s r IH]; intros a b t C H; cbn [sel]; auto. cbn [chain_from] in C. destruct C as (E & L & C). assert (Cl := chain_le _ _ _ C).
  assert (K : Rltb (s_lb s) t && Rltb t (s_ub s) = false).
  { destruct (Rltb (s_lb s) t) eqn:E1, (Rltb t (s_ub s)) eqn:E2; auto. exfalso. apply Rltb_true in E1. apply Rltb_true in E2.
    destruct H as [H|[H|(s' & [<-|I] & H)]]; try lra. destruct (chain_in_bounds _ _ _ _ C I) as (B1 & B2 & B3). lra. }
  rewrite K. apply (IH (s_ub s) b); auto. destruct H as [H|[H|(s' & [<-|I] & H)]]; [left; lra|auto| |right; right; eauto].
  destruct H as [->| ->]; left; lra.
Qed.
Lemma sel_in c f x : forall a b s t, chain_from a x b -> List.In s x -> s_lb s < t < s_ub s -> sel c f x t = c s.
Proof.
  induction x as [|s r IH]; intros a b s' t C I H; [destruct I|]. cbn [sel chain_from] in *. destruct C as (E & L & C). destruct I as [<-|I].
  - rewrite (proj2 (Rltb_true _ _)), (proj2 (Rltb_true _ _)) by lra. auto.
  - destruct (chain_in_bounds _ _ _ _ C I) as (B1 & B2 & B3). destruct (Rltb t (s_ub s)) eqn:E2; [apply Rltb_true in E2; lra|]. rewrite andb_false_r. eapply IH; eauto.
Qed.
Lemma sel_has a b x c f : chain_from a x b -> has x f -> (forall s, List.In s x -> In (c s) (s_cod s)) -> has x (sel c f x).
Proof.
  intros C H Hc s I. destruct (H s I) as (H1 & H2 & H3). split; [|split].
  - rewrite (sel_out c f x a b); eauto 6.
  - rewrite (sel_out c f x a b); eauto 6.
  - intros t Ht. rewrite (sel_in c f x a b s); auto.
Qed.
Lemma sel_int c h x : forall a b, chain_from a x b -> (forall s t, List.In s x -> s_lb s < t < s_ub s -> h t = c s) ->
  is_RInt h a b (fold_right (fun s v => (s_ub s - s_lb s) * c s + v) 0 x).
Proof.
  induction x as [|s r IH]; intros a b C H; cbn [fold_right chain_from] in *.
  - subst b. apply (is_RInt_point (V := R_NormedModule) h a).
  - destruct C as (E & L & C). subst a. apply (is_RInt_Chasles h (s_lb s) (s_ub s) b ((s_ub s - s_lb s) * c s)).
    + apply (is_RInt_ext (fun _ => c s)).
      * intros t Ht. rewrite Rmin_left, Rmax_right in Ht by lra. symmetry. apply H; [left; auto|lra].
      * replace ((s_ub s - s_lb s) * c s) with (scal (s_ub s - s_lb s) (c s)) by reflexivity. apply (is_RInt_const (s_lb s) (s_ub s) (c s)).
    + apply IH; auto. intros s' t I. apply H. right. auto.
Qed.

(** ** Volume *)
Definition vsum (x : tube) : R := fold_right (fun s v => (s_ub s - s_lb s) * (hi (s_cod s) - lo (s_cod s)) + v) 0 x.
Definition bounded_cods (x : tube) : Prop := forall s, List.In s x -> exists l h, s_cod s = Itv (Some l) (Some h).
Lemma volume_loop_spec x : forall acc, (forall s, List.In s x -> s_cod s <> Emp) ->
  match volume_loop acc x with Some V => bounded_cods x /\ V = acc + vsum x | None => exists s, List.In s x /\ is_unbounded (s_cod s) = true end.
Proof.
  induction x as [|s r IH]; intros acc Ne; cbn [volume_loop vsum fold_right].
  - split; [intros s []|lra].
  - unfold slice_volume. assert (N := Ne s (or_introl eq_refl)). destruct (s_cod s) as [|[l|] [h|]] eqn:E; [congruence| | | |]; cbn [wd option_map];
      try (exists s; split; [left; auto|rewrite E; auto]; fail).
    specialize (IH (acc + (s_ub s - s_lb s) * (h - l)) (fun q Q => Ne q (or_intror Q))). destruct (volume_loop _ r) as [V|].
    + destruct IH as [B ->]. split; [intros q [<-|Q]; eauto|]. unfold vsum. cbn [hi lo]. lra.
    + destruct IH as (q & Q & U). exists q. split; [right|]; auto.
Qed.
Lemma area_end a b x : chain_from a x b -> area hi x b - area lo x b = vsum x.
Proof.
  revert a. induction x as [|s r IH]; intros a C; cbn [area vsum fold_right chain_from] in *; [lra|]. destruct C as (E & L & C). assert (Cl := chain_le _ _ _ C).
  rewrite clamp_hi by lra. specialize (IH _ C). unfold vsum in IH. lra.
Qed.
Lemma has_cod a b x f s : tube_ok a b x -> has x f -> List.In s x -> s_cod s <> Emp.
Proof. intros Ok H I E. destruct (H s I) as (_ & _ & K). destruct (chain_in_bounds _ _ _ _ (ok_chain _ _ _ Ok) I) as (B1 & B2 & B3). specialize (K ((s_lb s + s_ub s) / 2) ltac:(lra)). rewrite E in K. destruct K. Qed.

(** C114: the volume bounds the difference between the integrals of two trajectories of the tube, and no smaller value does. *)
Theorem C114_volume : forall a b x V, tube_ok a b x -> volume x = Some V -> (exists f, has x f) ->
  (forall f g, has x f -> has x g -> ex_RInt f a b -> ex_RInt g a b -> RInt f a b - RInt g a b <= V) /\
  (exists f g, has x f /\ has x g /\ ex_RInt f a b /\ ex_RInt g a b /\ RInt f a b - RInt g a b = V).
Proof.
  intros a b x V Ok E (f0 & H0). assert (C := ok_chain _ _ _ Ok). assert (Cl := chain_le _ _ _ C).
  assert (S := volume_loop_spec x 0 (fun s => has_cod a b x f0 s Ok H0)). unfold volume in E. rewrite E in S. destruct S as [B ->]. rewrite Rplus_0_l. split.
  - assert (K : forall f, has x f -> ex_RInt f a b -> area lo x b <= RInt f a b <= area hi x b).
    { intros f Hf Ef. assert (A := area_bounds f (fun t => RInt f a t) x a b a b C (rises_all f _ a b x C Hf (follows_RInt a b f Ef Cl)) Hf ltac:(lra) Cl ltac:(lra)).
      rewrite !(area_zero _ x a b a) in A by (auto; lra). cbv beta in A. rewrite RInt_point in A. change (@zero R_NormedModule) with 0 in A. rewrite !Rminus_0_r in A. apply A. intros s I _. apply B; auto. }
    intros f g Hf Hg Ef Eg. destruct (K f Hf Ef). destruct (K g Hg Eg). rewrite <- (area_end a b x C). lra.
  - assert (F : forall p, (forall l h, l <= h -> l <= p (Itv (Some l) (Some h)) <= h) -> exists f, has x f /\ is_RInt f a b (fold_right (fun s v => (s_ub s - s_lb s) * p (s_cod s) + v) 0 x)).
    { intros p Hp. exists (sel (fun s => p (s_cod s)) f0 x). split.
      - apply (sel_has a b); auto. intros s I. destruct (B s I) as (l & h & Es). rewrite Es. cbn. apply Hp.
        assert (O := ok_slices _ _ _ Ok). rewrite Forall_forall in O. destruct (O s I) as (W & _). rewrite Es in W. auto.
      - apply (sel_int (fun s => p (s_cod s))); auto. intros s t I Ht. apply (sel_in (fun s => p (s_cod s)) f0 x a b); auto. }
    destruct (F hi ltac:(intros; cbn; lra)) as (f & Hf & If). destruct (F lo ltac:(intros; cbn; lra)) as (g & Hg & Ig).
    exists f, g. repeat (split; auto). { eexists; eauto. } { eexists; eauto. }
    rewrite (is_RInt_unique _ _ _ _ If), (is_RInt_unique _ _ _ _ Ig). clear. induction x; cbn; [lra|]. unfold vsum in *. lra.
Qed.
(** C114: the volume is infinite exactly when the values of some slice are not bounded. *)
Theorem C114_volume_infinite : forall a b x, tube_ok a b x -> (exists f, has x f) ->
  (volume x = None <-> exists s, List.In s x /\ is_unbounded (s_cod s) = true).
Proof.
  intros a b x Ok (f & H). assert (S := volume_loop_spec x 0 (fun s => has_cod a b x f s Ok H)). unfold volume. destruct (volume_loop 0 x); split; auto; try discriminate.
  destruct S as [B _]. intros (s & I & U). destruct (B s I) as (l & h & E). rewrite E in U. discriminate.
Qed.
(** C114: a tube with fewer trajectories has a smaller volume, whatever the slicings. *)
Theorem C114_volume_monotone : forall a b x y, tube_ok a b x -> tube_ok a b y -> (exists f, has x f) -> (forall f, has x f -> has y f) ->
  wle (volume x) (volume y).
Proof.
  intros a b x y Ox Oy Ne Sub. destruct (volume y) as [V|] eqn:EV; [|exact Logic.I]. cbn. destruct Ne as (f0 & H0).
  destruct (C114_volume a b y V Oy EV (ex_intro _ f0 (Sub _ H0))) as [Up _].
  destruct (volume x) as [W|] eqn:EW.
  - destruct (C114_volume a b x W Ox EW (ex_intro _ f0 H0)) as [_ (f & g & Hf & Hg & Ef & Eg & <-)]. apply Up; auto.
  - apply (C114_volume_infinite a b x Ox (ex_intro _ f0 H0)) in EW. destruct EW as (s & I & U).
    (* a trajectory of x goes beyond every bound inside s *)
    destruct (chain_in_bounds _ _ _ _ (ok_chain _ _ _ Ox) I) as (B1 & B2 & B3). set (m := (s_lb s + s_ub s) / 2).
    assert (Hy : exists sy l h, List.In sy y /\ s_lb sy <= m <= s_ub sy /\ s_cod sy = Itv (Some l) (Some h)).
    { assert (SV := volume_loop_spec y 0 (fun s => has_cod a b y f0 s Oy (Sub _ H0))). unfold volume in EV. rewrite EV in SV. destruct SV as [BV _].
      assert (K : exists sy, List.In sy y /\ s_lb sy <= m <= s_ub sy).
      { assert (Cy := ok_chain _ _ _ Oy). assert (M : a <= m <= b) by (unfold m; lra). clear - Cy M Oy. assert (Ne := ok_ne _ _ _ Oy). clear Oy. revert a Cy M Ne. induction y as [|q r IH]; intros a C M Ne; [congruence|].
        cbn [chain_from] in C. destruct C as (E & L & C). destruct (Rle_lt_dec m (s_ub q)) as [Q|Q]; [exists q; split; [left; auto|lra]|].
        destruct r as [|q' r]; [cbn in C; lra|]. destruct (IH (s_ub q) C ltac:(lra) ltac:(discriminate)) as (z & Z & Z'). exists z. split; [right|]; auto. }
      destruct K as (sy & Iy & My). destruct (BV sy Iy) as (l & h & E). exists sy, l, h. auto. }
    destruct Hy as (sy & l & h & Iy & My & Ey).
    assert (Far : exists w, In w (s_cod s) /\ (w < l \/ h < w)).
    { assert (N := has_cod a b x f0 s Ox H0 I). destruct (s_cod s) as [|[p|] [q|]]; [congruence|discriminate| | |].
      - exists (Rmax p (h + 1)). cbn. assert (K1 := Rmax_l p (h + 1)). assert (K2 := Rmax_r p (h + 1)). split; [tauto|lra].
      - exists (Rmin q (l - 1)). cbn. assert (K1 := Rmin_l q (l - 1)). assert (K2 := Rmin_r q (l - 1)). split; [tauto|lra].
      - exists (h + 1). cbn. split; [tauto|lra]. }
    destruct Far as (w & Hw & Fw). set (h1 := sel (fun q => if Reqb (s_lb q) (s_lb s) then w else f0 ((s_lb q + s_ub q) / 2)) f0 x).
    assert (Hx : has x h1).
    { apply (sel_has a b); auto; [apply (ok_chain _ _ _ Ox)|]. intros q Q. destruct (Reqb (s_lb q) (s_lb s)) eqn:EQ.
      - apply Reqb_true in EQ. replace q with s; auto. clear - EQ Q I Ox. assert (C := ok_chain _ _ _ Ox). clear Ox. revert a C. induction x as [|z r IH]; intros a C; [destruct I|]. cbn [chain_from] in C. destruct C as (E & L & C).
        destruct I as [<-|I], Q as [<-|Q]; auto; [| |eapply IH; eauto]; exfalso.
        + destruct (chain_in_bounds _ _ _ _ C Q). lra.
        + destruct (chain_in_bounds _ _ _ _ C I). lra.
      - destruct (H0 q Q) as (_ & _ & K). apply K. destruct (chain_in_bounds _ _ _ _ (ok_chain _ _ _ Ox) Q). lra. }
    assert (P : h1 m = w).
    { unfold h1. rewrite (sel_in _ f0 x a b s); auto; [|apply (ok_chain _ _ _ Ox)|unfold m; lra]. rewrite (proj2 (Reqb_true _ _) eq_refl). auto. }
    destruct (Sub _ Hx sy Iy) as (A1 & A2 & A3). assert (O := ok_slices _ _ _ Oy). rewrite Forall_forall in O. destruct (O sy Iy) as (_ & _ & _ & S1 & S2).
    assert (K : In (h1 m) (s_cod sy)).
    { destruct (Req_dec m (s_lb sy)) as [->|N1]; [apply S1; auto|]. destruct (Req_dec m (s_ub sy)) as [->|N2]; [apply S2; auto|]. apply A3. lra. }
    rewrite P, Ey in K. cbn in K. lra.
Qed.
(** C114: sampling does not change the volume. *)
Theorem C114_volume_sample : forall a b x t, tube_ok a b x -> a <= t <= b -> (exists f, has x f) -> volume (sample t x) = volume x.
Proof.
  intros a b x t Ok Ht Ne. assert (Ok' : tube_ok a b (sample t x)) by (apply sample_ok; auto).
  apply wle_anti; eapply (C114_volume_monotone a b); eauto; intros; try (apply (C02_sample_same_trajectories a b x t); auto).
  destruct Ne as (f & H). exists f. apply (C02_sample_same_trajectories a b x t); auto.
Qed.

(** ** The slice that maximises a quantity *)
(** [r] is the first slice of the list with the largest value of [k] *)
Definition first_max (k : slice -> option R) (x : tube) (r : slice) : Prop :=
  exists l1 l2, x = l1 ++ r :: l2 /\ (forall s, List.In s l1 -> wle (k s) (k r) /\ k s <> k r) /\ (forall s, List.In s l2 -> wle (k s) (k r)).
Fixpoint amax (k : slice -> option R) (best : slice) (m : option R) (x : tube) : slice :=
  match x with
  | [] => best
  | s :: r => if wgt (k s) m then amax k s (k s) r else amax k best m r
  end.
Lemma amax_spec k x : forall best, (amax k best (k best) x = best /\ forall s, List.In s x -> wle (k s) (k best)) \/
  (let r := amax k best (k best) x in wle (k best) (k r) /\ k best <> k r /\ first_max k x r).
Proof.
  induction x as [|s r IH]; intros best; cbn [amax]; [left; split; auto; intros s []|].
  destruct (wgt (k s) (k best)) eqn:W.
  - right. apply wgt_true in W. destruct W as [W1 W2]. destruct (IH s) as [[E H]|(H1 & H2 & l1 & l2 & E & A & B)]; cbv zeta.
    + rewrite E. split; auto. split; [congruence|]. exists [], r. split; auto. split; [intros q []|auto].
    + set (z := amax k s (k s) r) in *. split; [eapply wle_trans; eauto|]. split; [intros Q; apply H2; apply wle_anti; auto; rewrite <- Q; auto|]. exists (s :: l1), l2.
      split; [cbn; rewrite E; auto|]. split; auto. intros q [<-|Q]; auto.
  - apply wgt_false in W. destruct (IH best) as [[E H]|(H1 & H2 & l1 & l2 & E & A & B)]; cbv zeta.
    + left. split; auto. intros q [<-|Q]; auto.
    + right. set (z := amax k best (k best) r) in *. split; auto. split; auto. exists (s :: l1), l2. split; [cbn; rewrite E; auto|]. split; auto.
      intros q [<-|Q]; auto. split; [eapply wle_trans; eauto|]. intros Q. apply H2. apply wle_anti; auto. rewrite <- Q. auto.
Qed.
Lemma amax_first k s r : wle (Some 0) (k s) -> first_max k (s :: r) (amax k s (Some 0) (s :: r)).
Proof.
  intros P. cbn [amax]. assert (K : (if wgt (k s) (Some 0) then amax k s (k s) r else amax k s (Some 0) r) = amax k s (k s) r).
  { destruct (wgt (k s) (Some 0)) eqn:W; auto. apply wgt_false in W. rewrite (wle_anti _ _ W P). auto. }
  rewrite K. destruct (amax_spec k r s) as [[E H]|(H1 & H2 & l1 & l2 & E & A & B)].
  - rewrite E. exists [], r. split; auto. split; [intros q []|auto].
  - set (z := amax k s (k s) r) in *. exists (s :: l1), l2. split; [cbn; rewrite E; auto|]. split; auto. intros q [<-|Q]; auto.
Qed.
Lemma first_max_in k x r : first_max k x r -> List.In r x /\ forall s, List.In s x -> wle (k s) (k r).
Proof.
  intros (l1 & l2 & -> & A & B). split; [apply in_or_app; right; left; auto|]. intros s H. apply in_app_or in H. destruct H as [H|[<-|H]]; auto using wle_refl. apply A; auto.
Qed.
Lemma wider_amax x : forall best m, wider_loop best m x = amax (fun s => Some (s_ub s - s_lb s)) best (Some m) x.
Proof. induction x as [|s r IH]; intros best m; cbn; auto. rewrite !IH. auto. Qed.
Lemma amax_top k x : forall best, amax k best None x = best.
Proof. induction x as [|s r IH]; intros best; cbn; auto. destruct (k s); cbn; auto. Qed.
Lemma largest_amax x : forall best m, m <> None -> largest_loop best m x = amax (fun s => wd (s_cod s)) best m x.
Proof.
  induction x as [|s r IH]; intros best m Hm; cbn [largest_loop amax]; auto. destruct m as [m|]; [|congruence].
  destruct (is_unbounded (s_cod s)) eqn:U.
  - apply wd_none in U. rewrite U. cbn [wgt]. symmetry. apply amax_top.
  - assert (N : wd (s_cod s) <> None) by (intros N; apply wd_none in N; congruence). destruct (wgt _ _); apply IH; auto; discriminate.
Qed.
Definition steep_key (big : R) (s : slice) : option R := match steepness big s with Some d => Some d | None => Some 0 end.
Lemma steepest_amax big x : forall best m, 0 <= m -> steepest_loop big best m x = amax (steep_key big) best (Some m) x.
Proof.
  induction x as [|s r IH]; intros best m Hm; cbn [steepest_loop amax]; auto. unfold steep_key at 1 3. destruct (steepness big s) as [d|] eqn:E; cbn [wgt].
  - destruct (Rltb m d) eqn:L; [apply Rltb_true in L; replace (steep_key big s) with (Some d) by (unfold steep_key; rewrite E; auto)|]; apply IH; lra.
  - rewrite (proj2 (Rltb_false m 0)) by lra. apply IH; auto.
Qed.

(** C114: wider_slice is the first slice with the longest domain. *)
Theorem C114_wider : forall a b x, tube_ok a b x -> exists r, wider_slice x = Some r /\ first_max (fun s => Some (s_ub s - s_lb s)) x r.
Proof.
  intros a b x Ok. destruct x as [|s x]; [destruct (ok_ne _ _ _ Ok); auto|]. eexists. split; [reflexivity|]. rewrite wider_amax. apply amax_first.
  assert (C := ok_chain _ _ _ Ok). cbn in *. lra.
Qed.
Lemma largest_first a b x : tube_ok a b x -> exists r, largest_slice x = Some r /\ first_max (fun s => wd (s_cod s)) x r.
Proof.
  intros Ok. destruct x as [|s x]; [destruct (ok_ne _ _ _ Ok); auto|]. eexists. split; [reflexivity|]. rewrite largest_amax by discriminate. apply amax_first.
  assert (O := ok_slices _ _ _ Ok). inversion O as [|? ? (W & _)]; subst. destruct (wd (s_cod s)) eqn:E; cbn; auto. eapply wd_pos; eauto.
Qed.
(** C114: largest_slice is the first slice whose codomain is the widest one. *)
Theorem C114_largest : forall a b x, tube_ok a b x -> exists r w, largest_slice x = Some r /\ List.In r x /\ is_width (s_cod r) w /\
  (forall s u v, List.In s x -> In u (s_cod s) -> In v (s_cod s) -> at_most (Rabs (u - v)) w) /\
  exists l1 l2, x = l1 ++ r :: l2 /\ forall s, List.In s l1 -> ~ is_width (s_cod s) w.
Proof.
  intros a b x Ok. destruct (largest_first a b x Ok) as (r & E & F). exists r, (wd (s_cod r)). destruct (first_max_in _ _ _ F) as [I M].
  assert (O := ok_slices _ _ _ Ok). rewrite Forall_forall in O. split; auto. split; auto. split; [apply wd_width; apply O; auto|]. split.
  - intros s u v Hs Hu Hv. apply (at_most_le _ (wd (s_cod s))); auto. apply wd_width; auto. apply O; auto.
  - destruct F as (l1 & l2 & -> & A & B). exists l1, l2. split; auto. intros s Hs K. destruct (A s Hs) as [_ N]. apply N.
    assert (Ws : slice_ok s) by (apply O; apply in_or_app; auto). destruct Ws as (Ws & _).
    assert (Wr : wf (s_cod r)) by (apply O; auto). apply (width_uniq (s_cod s)); [intros w Hw; apply (wd_pos (s_cod s)); auto|intros w Hw; apply (wd_pos (s_cod r)); auto|apply wd_width; auto|exact K].
Qed.

Lemma pick_through a b x f0 s u : tube_ok a b x -> has x f0 -> List.In s x -> In u (s_cod s) -> exists f, has x f /\ forall t, s_lb s < t < s_ub s -> f t = u.
Proof.
  intros Ox H0 I Hu. exists (sel (fun q => if Reqb (s_lb q) (s_lb s) then u else f0 ((s_lb q + s_ub q) / 2)) f0 x). split.
  - apply (sel_has a b); auto; [apply (ok_chain _ _ _ Ox)|]. intros q Q. destruct (Reqb (s_lb q) (s_lb s)) eqn:EQ.
    + apply Reqb_true in EQ. replace q with s; auto. clear - EQ Q I Ox. assert (C := ok_chain _ _ _ Ox). clear Ox. revert a C. induction x as [|z r IH]; intros a C; [destruct I|]. cbn [chain_from] in C. destruct C as (E & L & C).
      destruct I as [<-|I], Q as [<-|Q]; auto; [| |eapply IH; eauto]; exfalso.
      * destruct (chain_in_bounds _ _ _ _ C Q). lra.
      * destruct (chain_in_bounds _ _ _ _ C I). lra.
    + destruct (H0 q Q) as (_ & _ & K). apply K. destruct (chain_in_bounds _ _ _ _ (ok_chain _ _ _ Ox) Q). lra.
  - intros t Ht. rewrite (sel_in _ f0 x a b s); auto; [|apply (ok_chain _ _ _ Ox)]. rewrite Reqb_refl. auto.
Qed.
Lemma in_cod a b x f t : tube_ok a b x -> has x f -> a <= t <= b -> exists s, List.In s x /\ s_lb s <= t <= s_ub s /\ In (f t) (s_cod s) /\ forall g, has x g -> In (g t) (s_cod s).
Proof.
  intros Ok H Ht. assert (K : exists s, List.In s x /\ s_lb s <= t <= s_ub s).
  { assert (C := ok_chain _ _ _ Ok). assert (Ne := ok_ne _ _ _ Ok). clear Ok H. revert a C Ht Ne. induction x as [|q r IH]; intros a C M Ne; [congruence|].
    cbn [chain_from] in C. destruct C as (E & L & C). destruct (Rle_lt_dec t (s_ub q)) as [Q|Q]; [exists q; split; [left; auto|lra]|].
    destruct r as [|q' r]; [cbn in C; lra|]. destruct (IH (s_ub q) C ltac:(lra) ltac:(discriminate)) as (z & Z & Z'). exists z. split; [right|]; auto. }
  destruct K as (s & I & B). assert (O := ok_slices _ _ _ Ok). rewrite Forall_forall in O. destruct (O s I) as (_ & _ & _ & S1 & S2).
  assert (K : forall g, has x g -> In (g t) (s_cod s)).
  { intros g Hg. destruct (Hg s I) as (A1 & A2 & A3). destruct (Req_dec t (s_lb s)) as [->|N1]; [apply S1; auto|]. destruct (Req_dec t (s_ub s)) as [->|N2]; [apply S2; auto|]. apply A3. lra. }
  exists s. auto.
Qed.
(** C114: max_diam is the least upper bound of the distances between two trajectories of the tube. *)
Theorem C114_max_diam : forall a b x w, tube_ok a b x -> (exists f, has x f) -> max_diam_tube x = Some w ->
  (forall f g t, has x f -> has x g -> a <= t <= b -> at_most (Rabs (f t - g t)) w) /\
  (forall w', 0 <= w' -> (forall f g t, has x f -> has x g -> a <= t <= b -> Rabs (f t - g t) <= w') -> wle w (Some w')).
Proof.
  intros a b x w Ok (f0 & H0) E. destruct (largest_first a b x Ok) as (r & Er & F). unfold max_diam_tube in E. rewrite Er in E.
  assert (Ew : w = wd (s_cod r)). { injection E as <-. destruct (is_unbounded (s_cod r)) eqn:U; auto. symmetry. apply wd_none. auto. } clear E. subst w.
  destruct (first_max_in _ _ _ F) as [I M]. assert (O := ok_slices _ _ _ Ok). rewrite Forall_forall in O. split.
  - intros f g t Hf Hg Ht. destruct (in_cod a b x f t Ok Hf Ht) as (s & Is & _ & K1 & K2). apply (at_most_le _ (wd (s_cod s))); auto. apply wd_width; auto. apply O; auto.
  - intros w' Hw H. destruct (wd_width (s_cod r)) as [_ L]; [apply O; auto|]. apply L; auto. intros u v Hu Hv.
    destruct (pick_through a b x f0 r u Ok H0 I Hu) as (f & Hf & Ef). destruct (pick_through a b x f0 r v Ok H0 I Hv) as (g & Hg & Eg).
    destruct (chain_in_bounds _ _ _ _ (ok_chain _ _ _ Ok) I) as (B1 & B2 & B3). rewrite <- (Ef ((s_lb r + s_ub r) / 2)), <- (Eg ((s_lb r + s_ub r) / 2)) by lra. apply H; auto. lra.
Qed.

(** ** Gates *)
(** [g] is the gate of the tube at the instant [t] *)
Definition gate_of (x : tube) (t : R) (g : itv) : Prop := exists s, List.In s x /\ (t = s_lb s /\ g = s_in s \/ t = s_ub s /\ g = s_out s).
Lemma gate_loop x : forall m t, match gate_diam_loop m t x with (w, t') =>
  wle m w /\ (forall s, List.In s x -> wle (wd (s_out s)) w) /\ (w = m /\ t' = t \/ exists s, List.In s x /\ w = wd (s_out s) /\ t' = s_ub s) end.
Proof.
  induction x as [|s r IH]; intros m t; cbn [gate_diam_loop]; [split; [apply wle_refl|split; [intros s []|auto]]|].
  destruct (is_unbounded (s_out s)) eqn:U.
  - apply wd_none in U. split; [destruct m; exact Logic.I|]. split; [intros q _; destruct (wd (s_out q)); exact Logic.I|]. right. exists s. split; [left; auto|]. rewrite U. auto.
  - destruct (wgt (wd (s_out s)) m) eqn:W.
    + apply wgt_true in W. specialize (IH (wd (s_out s)) (s_ub s)). destruct (gate_diam_loop _ _ r) as [w t']. destruct IH as (A & B & C).
      split; [eapply wle_trans; [apply W|auto]|]. split; [intros q [<-|Q]; auto|]. right. destruct C as [[-> ->]|(q & Q & C)]; [exists s|exists q]; split; auto; [left|right]; auto.
    + apply wgt_false in W. specialize (IH m t). destruct (gate_diam_loop m t r) as [w t']. destruct IH as (A & B & C). split; auto. split.
      * intros q [<-|Q]; auto. eapply wle_trans; eauto.
      * destruct C as [C|(q & Q & C)]; auto. right. exists q. split; auto. right; auto.
Qed.
Lemma gate_cases x : forall t g, gates_shared x -> gate_of x t g -> (exists s r, x = s :: r /\ g = s_in s) \/ exists s, List.In s x /\ g = s_out s.
Proof.
  induction x as [|s r IH]; intros t g G (q & Q & H); [destruct Q|]. destruct G as [G1 G2]. destruct Q as [<-|Q].
  - destruct H as [[_ ->]|[_ ->]]; [left; eauto|right; exists s; split; auto; left; auto].
  - destruct (IH t g G2 ltac:(exists q; auto)) as [(s' & r' & -> & ->)|(s' & I & ->)].
    + right. exists s. split; [left; auto|]. auto.
    + right. exists s'. split; auto. right; auto.
Qed.
Lemma gate_wf a b x t g : tube_ok a b x -> gate_of x t g -> wf g.
Proof. intros Ok (s & I & H). assert (O := ok_slices _ _ _ Ok). rewrite Forall_forall in O. destruct (O s I) as (_ & W1 & W2 & _). destruct H as [[_ ->]|[_ ->]]; auto. Qed.
(** C114: max_gate_diam gives the width of the widest gate and an instant where it lies. *)
Theorem C114_gate : forall a b x, tube_ok a b x -> exists w t g, max_gate_diam x = Some (w, t) /\ gate_of x t g /\ is_width g w /\
  forall t' g' u v, gate_of x t' g' -> In u g' -> In v g' -> at_most (Rabs (u - v)) w.
Proof.
  intros a b x Ok. destruct x as [|s x]; [destruct (ok_ne _ _ _ Ok); auto|]. cbn [max_gate_diam].
  assert (W : wf (s_in s)) by (apply (gate_wf a b _ (s_lb s) _ Ok); exists s; split; [left|]; auto).
  destruct (is_unbounded (s_in s)) eqn:U.
  - apply wd_none in U. exists None, (s_lb s), (s_in s). split; auto. split; [exists s; split; [left|]; auto|]. split; [rewrite <- U; apply wd_width; auto|]. intros; exact Logic.I.
  - assert (L := gate_loop (s :: x) (wd (s_in s)) (s_lb s)). destruct (gate_diam_loop _ _ _) as [w t] eqn:E. destruct L as (A & B & C).
    assert (Up : forall t' g' u v, gate_of (s :: x) t' g' -> In u g' -> In v g' -> at_most (Rabs (u - v)) w).
    { intros t' g' u v Hg Hu Hv. apply (at_most_le _ (wd g')); [apply wd_width; auto; eapply gate_wf; eauto|].
      destruct (gate_cases _ t' g' (ok_shared _ _ _ Ok) Hg) as [(q & r & Q & ->)|(q & I & ->)]; auto. inversion Q; subst. auto. }
    exists w, t. destruct C as [[-> ->]|(q & I & -> & ->)].
    + exists (s_in s). split; auto. split; [exists s; split; [left|]; auto|]. split; auto. apply wd_width; auto.
    + exists (s_out q). split; auto. assert (G : gate_of (s :: x) (s_ub q) (s_out q)) by (exists q; auto). split; auto. split; auto. apply wd_width. eapply gate_wf; eauto.
Qed.
(** C114: two trajectories of the tube differ by at most this width at the bounds of the slices. *)
Theorem C114_gate_trajectories : forall a b x w t f g s, tube_ok a b x -> max_gate_diam x = Some (w, t) -> has x f -> has x g -> List.In s x ->
  at_most (Rabs (f (s_lb s) - g (s_lb s))) w /\ at_most (Rabs (f (s_ub s) - g (s_ub s))) w.
Proof.
  intros a b x w t f g s Ok E Hf Hg I. destruct (C114_gate a b x Ok) as (w' & t' & g' & E' & _ & _ & U). rewrite E in E'. inversion E'; subst w' t'.
  destruct (Hf s I) as (F1 & F2 & _). destruct (Hg s I) as (G1 & G2 & _). split; [apply (U (s_lb s) (s_in s))|apply (U (s_ub s) (s_out s))]; auto; exists s; auto.
Qed.

(** ** Slopes *)
(** [m] is the middle of a bounded interval *)
Definition middle (i : itv) (m : R) : Prop := exists l h, i = Itv (Some l) (Some h) /\ m - l = h - m.
(** distance between the middles of the gates of a slice *)
Definition slope (s : slice) (d : R) : Prop := exists i o, middle (s_in s) i /\ middle (s_out s) o /\ d = Rabs (o - i).
Lemma steep_slope big s d : slope s d -> steepness big s = Some d.
Proof. intros (i & o & (l & h & E & M) & (l' & h' & E' & M') & ->). unfold steepness. rewrite E, E'. cbn. do 2 f_equal. lra. Qed.
Lemma slope_pos s d : slope s d -> 0 <= d.
Proof. intros (i & o & _ & _ & ->). apply Rabs_pos. Qed.
Lemma steep_key_pos big s : wle (Some 0) (steep_key big s).
Proof. unfold steep_key, steepness. destruct (mid big (s_out s)), (mid big (s_in s)); cbn; try lra. apply Rabs_pos. Qed.
(** C114: steepest_slice: no slice with bounded gates has a larger slope. *)
Theorem C114_steepest : forall big a b x, tube_ok a b x -> exists r, steepest_slice big x = Some r /\ List.In r x /\
  forall d s d', slope r d -> List.In s x -> slope s d' -> d' <= d.
Proof.
  intros big a b x Ok. destruct x as [|s x]; [destruct (ok_ne _ _ _ Ok); auto|]. eexists. split; [reflexivity|]. rewrite steepest_amax by lra.
  assert (F := amax_first (steep_key big) s x (steep_key_pos big s)). destruct (first_max_in _ _ _ F) as [I M]. split; auto.
  intros d q d' D I' D'. specialize (M q I'). unfold steep_key in M at 1 2. rewrite (steep_slope big _ _ D'), (steep_slope big _ _ D) in M. exact M.
Qed.
(** C114: the steepest slice of a vector, all the gates being bounded. *)
Theorem C114_vector_steepest : forall big v, v <> [] -> (forall x, List.In x v -> exists a b, tube_ok a b x) ->
  (forall x s, List.In x v -> List.In s x -> exists d, slope s d) ->
  exists r d, tv_steepest_slice big v = Some (Some r) /\ slope r d /\ (exists x, List.In x v /\ List.In r x) /\
    forall x s d', List.In x v -> List.In s x -> slope s d' -> d' <= d.
Proof.
  intros big v Ne Ok B.
  assert (K : forall w best m, (forall x, List.In x w -> List.In x v) -> 0 <= m ->
    (best = None -> m = 0 /\ w <> []) -> (forall r, best = Some r -> slope r m /\ exists x, List.In x v /\ List.In r x) ->
    exists r d, tv_steepest_loop big best m w = Some (Some r) /\ slope r d /\ m <= d /\ (exists x, List.In x v /\ List.In r x) /\
      forall x s d', List.In x w -> List.In s x -> slope s d' -> d' <= d).
  { induction w as [|x w IH]; intros best m Hw Hm N S; cbn [tv_steepest_loop].
    - destruct best as [r|]; [|destruct (N eq_refl); congruence]. destruct (S r eq_refl) as [S1 S2]. exists r, m. repeat (split; auto; try lra). intros x s d' [].
    - assert (Hx := Hw x (or_introl eq_refl)). destruct (Ok x Hx) as (a & b & Okx). destruct (C114_steepest big a b x Okx) as (r & -> & I & M). destruct (B x r Hx I) as (d & D). rewrite (steep_slope big r d D).
      destruct (Rleb m d) eqn:L.
      + destruct (IH (Some r) d) as (r' & d' & E & S' & Le & Ir & U); auto.
        { intros y Y. apply Hw. right; auto. } { apply (slope_pos r); auto. } { discriminate. } { intros q Q. inversion Q; subst q. split; auto. exists x; auto. }
        apply Rleb_true in L. exists r', d'. split; auto. split; auto. split; [lra|]. split; auto. intros y s e [<-|Y] Is De; [|eapply U; eauto]. specialize (M d s e D Is De). lra.
      + apply Rleb_false in L. destruct (IH best m) as (r' & d' & E & S' & Le & Ir & U); auto.
        { intros y Y. apply Hw. right; auto. } { intros Q. destruct (N Q) as [-> _]. exfalso. apply slope_pos in D. lra. }
        exists r', d'. split; auto. split; auto. split; auto. split; auto. intros y s e [<-|Y] Is De; [|eapply U; eauto]. specialize (M d s e D Is De). lra. }
  destruct (K v None 0) as (r & d & E & S & _ & I & U); auto; [lra|discriminate|]. exists r, d. auto.
Qed.

(** ** Vectors *)
(** C114: the volume of a vector is the sum of the volumes of its components. *)
Theorem C114_vector_volume : forall v, 
  match tv_volume v with
  | Some V => exists l, Forall2 (fun x w => volume x = Some w) v l /\ V = fold_right Rplus 0 l
  | None => exists x, List.In x v /\ volume x = None
  end.
Proof.
  assert (K : forall v acc, match fold_left (fun vol x => wadd vol (volume x)) v acc with
    | Some V => exists a l, acc = Some a /\ Forall2 (fun x w => volume x = Some w) v l /\ V = a + fold_right Rplus 0 l
    | None => acc = None \/ exists x, List.In x v /\ volume x = None end).
  { induction v as [|x v IH]; intros acc; cbn [fold_left].
    - destruct acc as [a|]; auto. exists a, []. repeat split; auto. cbn. lra.
    - specialize (IH (wadd acc (volume x))). destruct (fold_left _ v _) as [V|].
      + destruct IH as (a & l & E & F & ->). destruct acc as [c|]; [|discriminate]. destruct (volume x) as [w|] eqn:Ex; [|discriminate]. cbn in E. inversion E; subst a.
        exists c, (w :: l). repeat split; auto. cbn. lra.
      + destruct IH as [E|(y & Y & E)]; [|right; exists y; split; auto; right; auto]. destruct acc as [c|]; auto. right. exists x. split; [left; auto|]. destruct (volume x); auto. discriminate. }
  intros v. specialize (K v (Some 0)). unfold tv_volume. destruct (fold_left _ v _) as [V|].
  - destruct K as (a & l & E & F & ->). inversion E; subst a. exists l. split; auto. lra.
  - destruct K as [K|K]; [discriminate|auto].
Qed.
(** C114: max_gate_diam of a vector bounds the width of the gates of all components; its instant is that of such a gate unless no
    gate has a positive width, in which case the variable of the caller is not written. *)
Theorem C114_vector_gate : forall v t0, (forall x, List.In x v -> exists a b, tube_ok a b x) ->
  exists w t, tv_max_gate_diam t0 v = Some (w, t) /\
    (forall x t' g u u', List.In x v -> gate_of x t' g -> In u g -> In u' g -> at_most (Rabs (u - u')) w) /\
    (w = Some 0 /\ t = t0 \/ exists x g, List.In x v /\ gate_of x t g /\ is_width g w).
Proof.
  intros v t0 Ok.
  assert (K : forall r m t, (forall x, List.In x r -> List.In x v) -> exists w t', tv_gate_diam_loop m t r = Some (w, t') /\ wle m w /\
    (forall x t'' g u u', List.In x r -> gate_of x t'' g -> In u g -> In u' g -> at_most (Rabs (u - u')) w) /\
    (w = m /\ t' = t \/ exists x g, List.In x v /\ gate_of x t' g /\ is_width g w)).
  { induction r as [|x r IH]; intros m t Hr; cbn [tv_gate_diam_loop].
    - exists m, t. split; auto. split; [apply wle_refl|]. split; auto. intros x t'' g u u' [].
    - assert (Hx := Hr x (or_introl eq_refl)). destruct (Ok x Hx) as (a & b & Okx). destruct (C114_gate a b x Okx) as (wi & ti & g & -> & G & Wg & U). destruct (wgt wi m) eqn:W.
      + apply wgt_true in W. destruct (IH wi ti) as (w & t' & E & L & B & C). { intros y Y. apply Hr. right; auto. }
        exists w, t'. split; auto. split; [eapply wle_trans; [apply W|auto]|]. split.
        * intros y t'' g' u u' [<-|Y] G' Hu Hu'; [|eapply B; eauto]. apply (at_most_le _ wi); auto. eapply U; eauto.
        * right. destruct C as [[-> ->]|C]; auto. exists x, g. auto.
      + apply wgt_false in W. destruct (IH m t) as (w & t' & E & L & B & C). { intros y Y. apply Hr. right; auto. }
        exists w, t'. split; auto. split; auto. split; auto.
        intros y t'' g' u u' [<-|Y] G' Hu Hu'; [|eapply B; eauto]. apply (at_most_le _ wi); [eapply U; eauto|]. eapply wle_trans; eauto. }
  destruct (K v (Some 0) t0) as (w & t & E & _ & B & C); auto. exists w, t. auto.
Qed.

(** ** Index of a slice, overlaps *)
Lemma index_at a l : forall i n, NoDup l -> nth_error l n = Some a -> index_loop a i l = (i + Z.of_nat n)%Z.
Proof.
  induction l as [|b r IH]; intros i n D E; [destruct n; discriminate|]. inversion D as [|? ? N D']; subst. cbn [index_loop]. destruct (Nat.eqb b a) eqn:Q.
  - apply Nat.eqb_eq in Q. subst b. destruct n as [|n]; [cbn; lia|]. exfalso. apply N. cbn in E. apply (nth_error_In _ _ E).
  - destruct n as [|n]; [cbn in E; inversion E; subst; rewrite Nat.eqb_refl in Q; discriminate|]. cbn in E. destruct r as [|c r]; [destruct n; discriminate|].
    rewrite (IH (i + 1)%Z n); auto. lia.
Qed.
Lemma index_none a l : forall i, l <> [] -> ~ List.In a l -> index_loop a i l = (-1)%Z.
Proof.
  induction l as [|b r IH]; intros i Ne N; [congruence|]. cbn [index_loop]. destruct (Nat.eqb b a) eqn:Q; [apply Nat.eqb_eq in Q; destruct N; left; auto|].
  destruct r as [|c r]; auto. apply IH; [discriminate|]. intros H. apply N. right; auto.
Qed.
(** C114: index() is the rank of the slice, or -1. *)
Theorem C114_index : forall a l, NoDup l -> l <> [] ->
  (forall n, nth_error l n = Some a <-> index a l = Z.of_nat n) /\ (index a l = (-1)%Z <-> ~ List.In a l).
Proof.
  intros a l D Ne. unfold index.
  assert (A : forall n, nth_error l n = Some a -> index_loop a 0 l = Z.of_nat n) by (intros n E; rewrite (index_at a l 0 n D E); lia).
  assert (B : ~ List.In a l -> index_loop a 0 l = (-1)%Z) by (apply index_none; auto). split.
  - intros n. split; auto. intros E. destruct (in_dec Nat.eq_dec a l) as [I|I]; [|specialize (B I); lia]. apply In_nth_error in I. destruct I as (k & Ek). specialize (A k Ek). assert (k = n) by lia. subst; auto.
  - split; auto. intros E I. apply In_nth_error in I. destruct I as (k & Ek). specialize (A k Ek). lia.
Qed.
Lemma tube_inter_ok a b x y : tube_ok a b x -> tube_ok a b y -> tube_ok a b (tube_binary inter x y).
Proof. apply C08_binary_ok, mono2_inter. Qed.
Lemma range_full x : forall a b acc, chain_from a x b -> (forall s, List.In s x -> s_cod s <> Emp) ->
  fold_left (fun w s => if is_empty (s_cod s) then w else w + (s_ub s - s_lb s)) x acc = acc + (b - a).
Proof.
  induction x as [|s r IH]; intros a b acc C N; cbn [fold_left chain_from] in *; [lra|]. destruct C as (E & L & C).
  destruct (is_empty (s_cod s)) eqn:Q; [destruct (N s (or_introl eq_refl)); apply is_empty_true; auto|]. rewrite (IH (s_ub s) b); auto; [lra|]. intros q I. apply N. right; auto.
Qed.
Lemma range_le x : forall a b acc, chain_from a x b ->
  fold_left (fun w s => if is_empty (s_cod s) then w else w + (s_ub s - s_lb s)) x acc <= acc + (b - a).
Proof.
  induction x as [|s r IH]; intros a b acc C; cbn [fold_left chain_from] in *; [lra|]. destruct C as (E & L & C). destruct (is_empty (s_cod s)).
  - specialize (IH (s_ub s) b acc C). lra.
  - specialize (IH (s_ub s) b (acc + (s_ub s - s_lb s)) C). lra.
Qed.
Lemma range_all x : forall a b acc, chain_from a x b -> acc + (b - a) <= fold_left (fun w s => if is_empty (s_cod s) then w else w + (s_ub s - s_lb s)) x acc ->
  forall s, List.In s x -> s_cod s <> Emp.
Proof.
  induction x as [|q r IH]; intros a b acc C H s I; [destruct I|]. cbn [fold_left chain_from] in *. destruct C as (E & L & C). destruct (is_empty (s_cod q)) eqn:Q.
  - assert (K := range_le r (s_ub q) b acc C). lra.
  - destruct I as [<-|I]; [intros Z; rewrite Z in Q; discriminate|]. apply (IH (s_ub q) b (acc + (s_ub q - s_lb q))); auto. lra.
Qed.
Lemma dom_ends a b x : tube_ok a b x -> t0 x = a /\ tf x = b /\ a < b.
Proof.
  intros Ok. assert (C := ok_chain _ _ _ Ok). assert (Ne := ok_ne _ _ _ Ok). clear Ok. destruct x as [|s r]; [congruence|]. clear Ne.
  split; [apply C|]. revert a s C. induction r as [|q r IH]; intros a s C; cbn [chain_from] in C.
  - destruct C as (E & L & E'). cbn. split; auto. lra.
  - destruct C as (E & L & C). destruct (IH _ _ C) as [E' L']. split; [exact E'|lra].
Qed.
(** C114: two tubes with a common trajectory overlap, for every ratio up to 1. *)
Theorem C114_overlaps : forall a b x y f ratio, tube_ok a b x -> tube_ok a b y -> has x f -> has y f -> ratio <= 1 -> overlaps x y ratio = true.
Proof.
  intros a b x y f ratio Ox Oy Hx Hy R1. assert (Oz := tube_inter_ok a b x y Ox Oy). assert (Hz : has (tube_binary inter x y) f) by (apply (C09_inter a b); auto).
  unfold overlaps. cbv zeta. rewrite (range_full _ a b); [|apply (ok_chain _ _ _ Oz)|intros s I; eapply has_cod; eauto]. destruct (dom_ends a b x Ox) as (-> & -> & L).
  apply Rleb_true. replace ((0 + (b - a)) / (b - a)) with 1; auto. field. lra.
Qed.
(** C114: an overlap of ratio 1 means that the intersection has no empty codomain, hence a trajectory if its gates are not empty. *)
Theorem C114_overlaps_full : forall a b x y, tube_ok a b x -> tube_ok a b y -> overlaps x y 1 = true ->
  (forall t g, gate_of (tube_binary inter x y) t g -> g <> Emp) -> exists f, has x f /\ has y f.
Proof.
  intros a b x y Ox Oy E G. assert (Oz := tube_inter_ok a b x y Ox Oy). set (z := tube_binary inter x y) in *. destruct (dom_ends a b x Ox) as (E0 & E1 & L).
  assert (C := ok_chain _ _ _ Oz). assert (O := ok_slices _ _ _ Oz). rewrite Forall_forall in O.
  assert (Ne : forall s, List.In s z -> s_cod s <> Emp).
  { apply (range_all z a b 0); auto. unfold overlaps in E. cbv zeta in E. fold z in E. rewrite E0, E1 in E. apply Rleb_true in E.
    set (w := fold_left _ z 0) in *. apply Rmult_le_compat_r with (r := b - a) in E; [|lra]. unfold Rdiv in E. rewrite Rmult_assoc, Rinv_l in E; lra. }
  set (pick := fun i => match i with Itv (Some l) _ => l | Itv None (Some h) => h | _ => 0 end).
  assert (P : forall i, wf i -> i <> Emp -> In (pick i) i). { intros [|[l|] [h|]] W N; cbn in *; try congruence; try tauto; lra. }
  set (gate := fix gate (r : tube) (t : R) : R := match r with [] => 0 | s :: q => if Reqb t (s_lb s) then pick (s_in s) else if Reqb t (s_ub s) then pick (s_out s) else gate q t end).
  assert (Gt : forall r a', chain_from a' r b -> gates_shared r -> forall s, List.In s r -> gate r (s_lb s) = pick (s_in s) /\ gate r (s_ub s) = pick (s_out s)).
  { induction r as [|s r IH]; intros a' Cr Sr q I; [destruct I|]. cbn [chain_from gates_shared] in *. destruct Cr as (Ea & La & Cr). destruct Sr as [S1 S2]. cbn [gate]. destruct I as [<-|I].
    - rewrite Reqb_refl. split; auto. rewrite (proj2 (Reqb_false (s_ub s) (s_lb s))) by lra. rewrite Reqb_refl. auto.
    - destruct (chain_in_bounds _ _ _ _ Cr I) as (B1 & B2 & B3). destruct (IH _ Cr S2 q I) as [I1 I2]. split.
      + rewrite (proj2 (Reqb_false (s_lb q) (s_lb s))) by lra. destruct (Reqb (s_lb q) (s_ub s)) eqn:Q; auto. apply Reqb_true in Q.
        destruct r as [|s' r]; [destruct I|]. rewrite S1. destruct I as [->|I]; auto. cbn [chain_from] in Cr. destruct Cr as (E2 & L2 & Cr). destruct (chain_in_bounds _ _ _ _ Cr I). lra.
      + rewrite (proj2 (Reqb_false (s_ub q) (s_lb s))) by lra. rewrite (proj2 (Reqb_false (s_ub q) (s_ub s))) by lra. auto. }
  exists (sel (fun s => pick (s_cod s)) (gate z) z). apply (C09_inter a b x y); auto. fold z. intros s I. destruct (O s I) as (W1 & W2 & W3 & _). destruct (Gt z a C (ok_shared _ _ _ Oz) s I) as [G1 G2].
  split; [|split].
  - rewrite (sel_out _ _ z a b); eauto 6. rewrite G1. apply P; auto. apply (G (s_lb s)). exists s; auto.
  - rewrite (sel_out _ _ z a b); eauto 6. rewrite G2. apply P; auto. apply (G (s_ub s)). exists s; auto.
  - intros t Ht. rewrite (sel_in _ _ z a b s); auto.
Qed.

(** ** Concrete cases *)
Example C114_volume_case : volume tA = Some 4 /\ (exists f g, has tA f /\ has tA g /\ RInt f 0 2 - RInt g 0 2 = 4).
Proof.
  assert (E : volume tA = Some 4). { unfold volume, tA, I2. cbn. f_equal. lra. }
  split; auto. destruct (C114_volume 0 2 tA 4 tA_ok E (ex_intro _ _ tA_fA)) as (_ & f & g & Hf & Hg & _ & _ & K). exists f, g. auto.
Qed.
Example C114_sample_case : volume (sample (1 / 3) tA) = volume tA.
Proof. apply (C114_volume_sample 0 2); [exact tA_ok|lra|exists fA; exact tA_fA]. Qed.
Example C114_monotone_case : wle (volume (tube_binary inter tA tB)) (volume tA).
Proof.
  apply (C114_volume_monotone 0 2); [apply tube_inter_ok; [exact tA_ok|exact tB_ok]|exact tA_ok|exists fA; apply (C09_inter 0 2); auto using tA_ok, tB_ok, tA_fA, tB_fA|].
  intros f H. apply (C09_inter 0 2 tA tB f tA_ok tB_ok) in H. apply H.
Qed.
Definition tU : tube := [mkS 0 1 (I2 0 2) (I2 0 1) (I2 1 2); mkS 1 2 (Itv (Some 1) None) (I2 1 2) (I2 2 3)].
Lemma tU_ok : tube_ok 0 2 tU.
Proof. tube_ok_tac. Qed.
Lemma tU_fA : has tU fA.
Proof. unfold fA. apply has_cons; split; [repeat split; intros; cbn in *; lra|]. apply has_cons; split; [repeat split; intros; cbn in *; lra|]. apply has_nil. Qed.
Example C114_infinite_case : volume tU = None /\ max_diam_tube tU = Some None.
Proof.
  split; [apply (C114_volume_infinite 0 2 tU tU_ok (ex_intro _ _ tU_fA)); eexists; split; [right; left; reflexivity|reflexivity]|].
  unfold max_diam_tube, largest_slice, tU, I2. cbn. reval. reflexivity.
Qed.
(** widths 3, 3 and 4, domains 1/2, 1 and 1/2 *)
Example C114_slices_case : largest_slice tB = nth_error tB 2 /\ max_diam_tube tB = Some (Some 4) /\ wider_slice tB = nth_error tB 1 /\ max_gate_diam tB = Some (Some 2, 0).
Proof.
  unfold largest_slice, max_diam_tube, largest_slice, wider_slice, max_gate_diam, tB, I2. cbn. repeat split; reval; repeat f_equal; try lra; auto.
Qed.
Example C114_max_diam_case : forall f g t, has tB f -> has tB g -> 0 <= t <= 2 -> Rabs (f t - g t) <= 4.
Proof.
  destruct (C114_max_diam 0 2 tB (Some 4) tB_ok (ex_intro _ _ tB_fA)) as [K _]; [apply C114_slices_case|]. exact K.
Qed.
Lemma slope_ex s l h l' h' : s_in s = Itv (Some l) (Some h) -> s_out s = Itv (Some l') (Some h') -> exists d, slope s d.
Proof. intros E E'. exists (Rabs ((l' + h') / 2 - (l + h) / 2)), ((l + h) / 2), ((l' + h') / 2). split; [exists l, h; split; auto; lra|]. split; [exists l', h'; split; auto; lra|auto]. Qed.
Example C114_steepest_case : exists r, steepest_slice 10 tA = Some r /\ slope r 1 /\ tv_steepest_slice 10 [tA; tB] <> Some None.
Proof.
  exists (mkS 0 1 (I2 0 2) (I2 0 1) (I2 1 2)). split; [|split].
  - unfold steepest_slice, tA, I2. cbn. unfold steepness. cbn. rewrite !Rabs_right by lra. reval. reflexivity.
  - exists (1 / 2), (3 / 2). split; [exists 0, 1; cbn; split; auto; lra|]. split; [exists 1, 2; cbn; split; auto; lra|]. rewrite Rabs_right; lra.
  - destruct (C114_vector_steepest 10 [tA; tB]) as (r & d & E & _); [discriminate| | |congruence].
    + intros x [<-|[<-|[]]]; exists 0, 2; [exact tA_ok|exact tB_ok].
    + intros x s [<-|[<-|[]]] I; cbn in I; repeat destruct I as [<-|I]; try destruct I; eapply slope_ex; reflexivity.
Qed.
Example C114_gate_case : forall f g, has tA f -> has tA g -> Rabs (f 1 - g 1) <= 1.
Proof.
  intros f g Hf Hg. assert (E : max_gate_diam tA = Some (Some 1, 0)). { unfold max_gate_diam, tA, I2. cbn. reval. repeat f_equal. lra. }
  destruct (C114_gate_trajectories 0 2 tA (Some 1) 0 f g (mkS 0 1 (I2 0 2) (I2 0 1) (I2 1 2)) tA_ok E Hf Hg (or_introl eq_refl)) as [_ K]. exact K.
Qed.
Example C114_index_case : index 7 [4; 7; 9]%nat = 1%Z /\ index 5 [4; 7; 9]%nat = (-1)%Z.
Proof. split; reflexivity. Qed.
Example C114_overlaps_case : overlaps tA tB 1 = true.
Proof. apply (C114_overlaps 0 2 tA tB fA); auto using tA_ok, tB_ok, tA_fA, tB_fA. lra. Qed.
(** one slice each, the gates at 0 have no common value *)
Definition oX : tube := [mkS 0 1 (I2 0 2) (I2 0 0) (I2 0 2)].
Definition oY : tube := [mkS 0 1 (I2 0 2) (I2 1 1) (I2 0 2)].
Lemma oX_ok : tube_ok 0 1 oX. Proof. tube_ok_tac. Qed.
Lemma oY_ok : tube_ok 0 1 oY. Proof. tube_ok_tac. Qed.
Theorem C114_overlaps_refuted : exists a b x y, tube_ok a b x /\ tube_ok a b y /\ overlaps x y 1 = true /\ ~ exists f, has x f /\ has y f.
Proof.
  exists 0, 1, oX, oY. split; [exact oX_ok|]. split; [exact oY_ok|]. split.
  - unfold overlaps, oX, oY, I2. unfold tube_binary. cbn. reval. cbn. reval. reflexivity.
  - intros (f & Hx & Hy). destruct (Hx _ (or_introl eq_refl)) as (K1 & _). destruct (Hy _ (or_introl eq_refl)) as (K2 & _). cbn in K1, K2. lra.
Qed.
(** all the gates of the vector are reduced to one value: the variable of the caller, here 9, is not written *)
Definition dG : tube := [mkS 0 1 (I2 0 2) (I2 1 1) (I2 1 1)].
Lemma dG_ok : tube_ok 0 1 dG. Proof. tube_ok_tac. Qed.
Theorem C114_vector_gate_refuted : exists v t0 w t, (forall x, List.In x v -> tube_ok 0 1 x) /\ v <> [] /\ tv_max_gate_diam t0 v = Some (w, t) /\
  ~ exists x g, List.In x v /\ gate_of x t g.
Proof.
  exists [dG], 9, (Some 0), 9. split; [intros x [<-|[]]; exact dG_ok|]. split; [discriminate|]. split.
  - unfold tv_max_gate_diam, tv_gate_diam_loop, max_gate_diam, dG, I2. cbn. reval. reflexivity.
  - intros (x & g & [<-|[]] & s & [<-|[]] & [[H _]|[H _]]); cbn in H; lra.
Qed.
(** a contraction of a gate is not seen by the volume *)
Theorem C114_volume_gate_refuted : exists a b x y f, tube_ok a b x /\ tube_ok a b y /\ (exists g, has x g) /\ (forall g, has x g -> has y g) /\ volume x = volume y /\ has y f /\ ~ has x f.
Proof.
  exists 0, 1, oX, [mkS 0 1 (I2 0 2) (I2 0 2) (I2 0 2)], (fun _ => 1). split; [exact oX_ok|]. split; [tube_ok_tac|]. split; [exists (fun _ => 0); unfold oX; has_tac|]. split; [|split; [|split]].
  - intros g H s [<-|[]]. destruct (H _ (or_introl eq_refl)) as (K1 & K2 & K3). cbn in *. split; [cbn; lra|]. split; auto.
  - reflexivity.
  - has_tac.
  - intros H. destruct (H _ (or_introl eq_refl)) as (K1 & _). cbn in K1. lra.
Qed.

Print Assumptions C114_volume.
Print Assumptions C114_volume_infinite.
Print Assumptions C114_volume_monotone.
Print Assumptions C114_volume_sample.
Print Assumptions C114_volume_gate_refuted.
Print Assumptions C114_wider.
Print Assumptions C114_largest.
Print Assumptions C114_max_diam.
Print Assumptions C114_gate.
Print Assumptions C114_gate_trajectories.
Print Assumptions C114_steepest.
Print Assumptions C114_vector_steepest.
Print Assumptions C114_vector_volume.
Print Assumptions C114_vector_gate.
Print Assumptions C114_vector_gate_refuted.
Print Assumptions C114_index.
Print Assumptions C114_overlaps.
Print Assumptions C114_overlaps_full.
Print Assumptions C114_overlaps_refuted.
