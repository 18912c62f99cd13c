(** * C115: thickness of tubes as trajectories *)

From Coq Require Import Reals Lra Bool List Arith ZArith Lia Psatz.
Import ListNotations.
From Verif Require Import Itv Arith Tube TubeSpec TubeFacts Trajectory TrajFacts PropsTraj Concrete Measure PropsMeasure.
Open Scope R_scope.

(** ** Sequences of calls to set() with increasing instants *)
Fixpoint incr (a : R) (l : smap) : Prop := match l with [] => True | (t, _) :: r => a < t /\ incr t r end.
Definition calls (l : smap) : list (option R * R) := map (fun e => (Some (snd e), fst e)) l.
Lemma put_end t y m : Forall (fun e => fst e < t) m -> put t y m = m ++ [(t, y)].
Proof.
  induction 1 as [|[k v] r H F IH]; cbn [put]; auto. cbn in H. rewrite (proj2 (Rltb_false t k)) by lra. rewrite (proj2 (Reqb_false k t)) by lra. rewrite IH. auto.
Qed.
Lemma sets_incr l : forall d a, traj_ok d -> Forall (fun e => fst e <= a) (t_map d) -> incr a l ->
  exists d', sets (calls l) d = Some d' /\ traj_ok d' /\ t_map d' = t_map d ++ l.
Proof.
  induction l as [|[t y] l IH]; intros d a Ok F I; cbn [calls map sets incr fst snd] in *; [exists d; rewrite app_nil_r; auto|]. destruct I as [I1 I2].
  destruct (set_def y t d Ok) as (d1 & E). rewrite E. assert (Ok1 := ok_set _ _ _ _ Ok E). assert (M1 := set_map _ _ _ _ E).
  assert (P : put t y (t_map d) = t_map d ++ [(t, y)]). { apply put_end. eapply Forall_impl; [|exact F]. intros e He. cbn in *. lra. }
  rewrite P in M1. destruct (IH d1 t Ok1) as (d' & E' & Ok' & M'); auto.
  - rewrite M1. apply Forall_app. split; [|constructor; auto; cbn; lra]. eapply Forall_impl; [|exact F]. intros e He. cbn in *. lra.
  - exists d'. split; auto. split; auto. rewrite M', M1, <- app_assoc. auto.
Qed.

(** ** The samples of diam() *)
Section DIAM.
  Variables (nf pf : R -> R) (gates : bool).
  Definition W (i : itv) : R := match wd i with Some w => w | None => 0 end.
  Fixpoint mp (x : tube) : smap :=
    match x with
    | [] => []
    | s :: r => (nf (s_lb s), W (s_cod s)) :: (pf (s_ub s), W (s_cod s)) ::
        (if gates then [(s_ub s, W (s_out s))] else match r with [] => [(s_ub s, W (s_cod s))] | _ => [] end) ++ mp r
    end.
  (** there are doubles strictly inside the slice *)
  Definition room (s : slice) : Prop := s_lb s < nf (s_lb s) /\ nf (s_lb s) < pf (s_ub s) /\ pf (s_ub s) < s_ub s.
  Definition thin (s : slice) : Prop := is_unbounded (s_cod s) = false.

  Lemma W_wd i : is_unbounded i = false -> wd i = Some (W i).
  Proof. unfold W. intros U. destruct (wd i) eqn:E; auto. apply wd_none in E. congruence. Qed.
  Lemma W_width i : wf i -> is_unbounded i = false -> is_width i (Some (W i)).
  Proof. intros Hw U. rewrite <- W_wd; auto. apply wd_width; auto. Qed.
  Lemma sub_bounded i j : sub i j -> wf i -> is_unbounded j = false -> is_unbounded i = false.
  Proof.
    intros S Wi U. destruct i as [|[l|] [h|]]; auto; exfalso; destruct j as [|[p|] [q|]]; try discriminate; cbn in Wi.
    - apply (S l); cbn; lra.
    - assert (K := S (Rmax l (q + 1))). assert (K1 := Rmax_l l (q + 1)). assert (K2 := Rmax_r l (q + 1)). cbn in K. lra.
    - apply (S h); cbn; lra.
    - assert (K := S (Rmin h (p - 1))). assert (K1 := Rmin_l h (p - 1)). assert (K2 := Rmin_r h (p - 1)). cbn in K. lra.
    - apply (S 0); cbn; tauto.
    - assert (K := S (q + 1)). cbn in K. lra.
  Qed.
  Lemma loop_calls x : Forall slice_ok x -> Forall thin x -> diam_loop nf pf gates x = calls (mp x).
  Proof.
    intros O T. induction O as [|s r Os O IH]; cbn [diam_loop mp calls]; auto. inversion T as [|? ? Ts Tr]; subst. destruct Os as (W1 & W2 & W3 & S1 & S2).
    unfold calls. cbn [map fst snd]. rewrite map_app. unfold diam_calls. rewrite (W_wd (s_cod s) Ts). cbn [app]. rewrite IH by auto. do 2 f_equal. f_equal.
    rewrite (W_wd (s_out s)) by (eapply sub_bounded; eauto). destruct gates; cbn; auto. destruct r; cbn; auto.
  Qed.
  Lemma mp_incr x : forall a b, chain_from a x b -> Forall room x -> incr a (mp x).
  Proof.
    assert (K : forall l a a', a' <= a -> incr a l -> incr a' l) by (intros [|[t y] l] u u' H I; cbn in *; auto; destruct I; split; auto; lra).
    induction x as [|s r IH]; intros a b C R; cbn [mp incr]; auto. cbn [chain_from] in C. destruct C as (E & L & C). inversion R as [|? ? (R1 & R2 & R3) Rr]; subst.
    split; [lra|]. split; auto. assert (I := IH _ _ C Rr). destruct gates; cbn [app incr].
    - split; auto.
    - destruct r as [|q r]; cbn [app incr]; [split; auto|]. apply (K _ (s_ub s)); auto. lra.
  Qed.
  Lemma mp_slice x s : List.In s x -> exists pre post, mp x = pre ++ (nf (s_lb s), W (s_cod s)) :: (pf (s_ub s), W (s_cod s)) :: post.
  Proof.
    induction x as [|q r IH]; intros I; [destruct I|]. cbn [mp]. destruct I as [->|I]; [exists []; eexists; reflexivity|].
    destruct (IH I) as (pre & post & E). rewrite E. eexists ((nf (s_lb q), W (s_cod q)) :: (pf (s_ub q), W (s_cod q)) :: _ ++ pre), post. cbn. rewrite <- app_assoc. reflexivity.
  Qed.
  Lemma mp_gate x s : gates = true -> List.In s x -> List.In (s_ub s, W (s_out s)) (mp x).
  Proof. intros G. induction x as [|q r IH]; intros I; [destruct I|]. cbn [mp]. rewrite G. destruct I as [->|I]; [right; right; left; auto|right; right; right; apply IH; auto]. Qed.
  Lemma mp_junction l1 s s' l2 : gates = false -> exists pre post, mp (l1 ++ s :: s' :: l2) = pre ++ (pf (s_ub s), W (s_cod s)) :: (nf (s_lb s'), W (s_cod s')) :: post.
  Proof.
    intros G. induction l1 as [|q l1 IH]; cbn [app mp]; rewrite G.
    - exists [(nf (s_lb s), W (s_cod s))]. eexists. cbn. reflexivity.
    - destruct IH as (pre & post & E). destruct (l1 ++ s :: s' :: l2) as [|z zs] eqn:Ez; [destruct l1; discriminate|]. rewrite E.
      exists ((nf (s_lb q), W (s_cod q)) :: (pf (s_ub q), W (s_cod q)) :: pre), post. reflexivity.
  Qed.
  Lemma mp_last l s : List.In (s_ub s, if gates then W (s_out s) else W (s_cod s)) (mp (l ++ [s])).
  Proof.
    induction l as [|q l IH]; cbn [app mp].
    - right. right. destruct gates; left; auto.
    - right. right. apply in_or_app. right. exact IH.
  Qed.
  Lemma mp_keys x : forall a b e, chain_from a x b -> Forall room x -> List.In e (mp x) -> a <= fst e <= b.
  Proof.
    induction x as [|s r IH]; intros a b e C R I; [destruct I|]. cbn [chain_from mp] in *. destruct C as (E & L & C). inversion R as [|? ? (R1 & R2 & R3) Rr]; subst. assert (Cl := PropsIntegral.chain_le _ _ _ C).
    destruct I as [<-|[<-|I]]; [cbn; lra|cbn; lra|]. apply in_app_or in I. destruct I as [I|I]; [|specialize (IH _ _ e C Rr I); lra].
    destruct gates; [destruct I as [<-|[]]; cbn; lra|]. destruct r; [destruct I as [<-|[]]; cbn; lra|destruct I].
  Qed.

  Lemma at_const d pre t1 t2 w post t : sampled d -> t_map d = pre ++ (t1, w) :: (t2, w) :: post -> t1 <= t <= t2 -> traj_at d t = Some w.
  Proof.
    intros S E Ht. destruct (C34_eval d S) as (_ & K & _). destruct (K _ _ _ _ _ _ t E Ht) as (v & Ev & _ & B). rewrite Rmin_left, Rmax_left in B by lra. rewrite Ev. f_equal. lra.
  Qed.

  Variables (a b : R) (x : tube).
  Hypotheses (Ok : tube_ok a b x) (HR : Forall room x) (HT : Forall thin x).
  Lemma diam_samples : exists d s r, x = s :: r /\ tube_diam nf pf gates x = Some d /\ traj_ok d /\ t_map d = (a, if gates then W (s_in s) else W (s_cod s)) :: mp x.
  Proof.
    destruct x as [|s r] eqn:Ex; [destruct (ok_ne _ _ _ Ok); auto|]. assert (C := ok_chain _ _ _ Ok). assert (O := ok_slices _ _ _ Ok).
    assert (Ea : s_lb s = a) by apply C. inversion O as [|? ? (W1 & W2 & W3 & S1 & S2) Or]; subst. inversion HT as [|? ? Ts Tr]; subst.
    assert (Hw : wd (if gates then s_in s else s_cod s) = Some (if gates then W (s_in s) else W (s_cod s))).
    { destruct gates; apply W_wd; auto. eapply sub_bounded; eauto. }
    unfold tube_diam. rewrite loop_calls by auto. rewrite Hw.
    destruct (sets_incr ((s_lb s, if gates then W (s_in s) else W (s_cod s)) :: mp (s :: r)) traj_new (s_lb s - 1)) as (d & E & Okd & M).
    { apply ok_new. } { constructor. } { cbn [incr]. split; [lra|]. apply (mp_incr _ _ b); auto. }
    exists d, s, r. split; auto.
  Qed.
End DIAM.

(** C115: diam() is defined over the domain of the tube; inside each slice, between the doubles that follow and precede its bounds, its
    value is the width of the codomain; with gates_thicknesses it is the width of the gate at each bound, otherwise it lies between
    the widths of the two codomains. *)
Theorem C115_diam : forall nf pf gates a b x, tube_ok a b x -> Forall (room nf pf) x -> Forall thin x -> exists d, tube_diam nf pf gates x = Some d /\
  (forall t, (exists v, traj_at d t = Some v) <-> a <= t <= b) /\
  (forall s t, List.In s x -> nf (s_lb s) <= t <= pf (s_ub s) -> exists w, traj_at d t = Some w /\ is_width (s_cod s) (Some w)) /\
  (gates = true -> forall t g, gate_of x t g -> exists w, traj_at d t = Some w /\ is_width g (Some w)) /\
  (gates = false -> forall l1 s s' l2, x = l1 ++ s :: s' :: l2 -> exists v w w', traj_at d (s_ub s) = Some v /\ is_width (s_cod s) (Some w) /\ is_width (s_cod s') (Some w') /\
     Rmin w w' <= v <= Rmax w w') /\
  (gates = false -> forall s r, x = s :: r -> exists w, traj_at d a = Some w /\ is_width (s_cod s) (Some w)) /\
  (gates = false -> forall l s, x = l ++ [s] -> exists w, traj_at d b = Some w /\ is_width (s_cod s) (Some w)).
Proof.
  intros nf pf gates a b x Ok HR HT. destruct (diam_samples nf pf gates a b x Ok HR HT) as (d & s0 & r0 & Ex & E & Okd & M). exists d. split; auto.
  assert (Sd := ok_sampled d Okd). destruct (C34_eval d Sd) as (K1 & K2 & K3). assert (C := ok_chain _ _ _ Ok). assert (O := ok_slices _ _ _ Ok). rewrite Forall_forall in O, HR, HT.
  assert (Cl := PropsIntegral.chain_le _ _ _ C).
  assert (Wc : forall s, List.In s x -> is_width (s_cod s) (Some (W (s_cod s)))) by (intros s I; apply W_width; [apply O; auto|apply HT; auto]).
  assert (Hend : exists l s, x = l ++ [s]). { destruct (exists_last (ok_ne _ _ _ Ok)) as (l & s & El). eauto. }
  assert (Eb : forall l s, x = l ++ [s] -> s_ub s = b). { intros l s El. rewrite El in C. clear - C. revert a C. induction l as [|q l IH]; intros a C; cbn in C; [tauto|]. apply (IH (s_ub q)). tauto. }
  split; [|split; [|split; [|split; [|split]]]].
  - intros t. rewrite <- K3. destruct Okd as (_ & _ & (Wd & D1 & D2) & _). split.
    + intros H. assert (S := D2 (Itv (Some a) (Some b))). apply S in H; [cbn in H; lra|]. intros v (y & Hv). rewrite M in Hv. destruct Hv as [Hv|Hv]; [inversion Hv; subst; cbn; lra|].
      assert (Hr : Forall (room nf pf) x) by (apply Forall_forall; auto). assert (Hk := mp_keys nf pf gates x a b _ C Hr Hv). cbn in *. lra.
    + intros H. assert (Ia : In a (t_dom d)) by (apply D1; eexists; rewrite M; left; reflexivity).
      assert (Ib : In b (t_dom d)). { destruct Hend as (l & s & El). apply D1. eexists. rewrite M, El. right. rewrite <- (Eb l s El). apply mp_last. }
      destruct (t_dom d) as [|[p|] [q|]]; cbn in *; lra.
  - intros s t I Ht. exists (W (s_cod s)). split; auto. destruct (mp_slice nf pf gates x s I) as (pre & post & Ep). rewrite Ep in M.
    apply (at_const d ((a, if gates then W (s_in s0) else W (s_cod s0)) :: pre) (nf (s_lb s)) (pf (s_ub s)) (W (s_cod s)) post); auto.
  - intros G t g Hg. assert (Wg := gate_wf a b x t g Ok Hg). assert (Ug : is_unbounded g = false).
    { destruct Hg as (s & I & [[_ ->]|[_ ->]]); destruct (O s I) as (W1 & W2 & W3 & S1 & S2); eapply sub_bounded; eauto; apply HT; auto. }
    exists (W g). split; [|apply W_width; auto]. apply K1. rewrite M. rewrite G in *.
    assert (Key : (exists s r, x = s :: r /\ t = s_lb s /\ g = s_in s) \/ exists s, List.In s x /\ t = s_ub s /\ g = s_out s).
    { destruct Hg as (s & I & [[-> ->]|[-> ->]]); [|right; eauto]. destruct (in_split _ _ I) as (l1 & l2 & El). assert (L1 : l1 = [] \/ exists l q, l1 = l ++ [q]) by (destruct l1 as [|z zs]; auto; right; destruct (@exists_last _ (z :: zs)) as (l & q & El'); [discriminate|eauto]). destruct L1 as [->|(l & q & ->)].
      - left. exists s, l2. auto.
      - right. exists q. rewrite El in *. split; [apply in_or_app; left; apply in_or_app; right; left; auto|].
        assert (Sh := ok_shared _ _ _ Ok). clear - C Sh. rewrite <- app_assoc in *. cbn [app] in *. revert a C. induction l as [|z l IH]; intros a C; cbn [app chain_from gates_shared] in *; [destruct C as (_ & _ & C2 & _); destruct Sh as (Sh & _); split; congruence|].
        destruct Sh as [_ Sh]. destruct C as (_ & _ & C). apply (IH Sh (s_ub z)); auto. }
    destruct Key as [(s & r & Es & -> & ->)|(s & I & -> & ->)].
    + left. rewrite Es in *. inversion Ex; subst. f_equal. symmetry. apply C.
    + right. apply mp_gate; auto.
  - intros G l1 s s' l2 El. destruct (mp_junction nf pf gates l1 s s' l2 G) as (pre & post & Ep). rewrite <- El in Ep. rewrite Ep in M.
    assert (Is : List.In s x) by (rewrite El; apply in_or_app; right; left; auto). assert (Is' : List.In s' x) by (rewrite El; apply in_or_app; right; right; left; auto).
    assert (Ej : s_lb s' = s_ub s). { rewrite El in C. clear - C. revert a C. induction l1 as [|q l IH]; intros a C; cbn in C; [tauto|]. apply (IH (s_ub q)). tauto. }
    destruct (K2 ((a, if gates then W (s_in s0) else W (s_cod s0)) :: pre) _ _ _ _ post (s_ub s) M) as (v & Ev & _ & B).
    { destruct (HR s Is) as (_ & _ & R3). destruct (HR s' Is') as (R1 & _). lra. }
    exists v, (W (s_cod s)), (W (s_cod s')). auto.
  - intros G s r El. exists (W (s_cod s)). rewrite Ex in El. inversion El; subst s r. rewrite G in M. split; [apply K1; rewrite M; left; auto|]. apply Wc. rewrite Ex. left; auto.
  - intros G l s El. exists (W (s_cod s)). split; [|apply Wc; rewrite El; apply in_or_app; right; left; auto]. apply K1. rewrite M. right. rewrite El, <- (Eb l s El). assert (L := mp_last nf pf gates l s). rewrite G in *. exact L.
Qed.

(** C115: at the instants that are not in the gaps between a bound of a slice and the next double, the distance between two trajectories of
    the tube is at most the thickness read on diam(). *)
Theorem C115_distance : forall nf pf gates a b x d f g t, tube_ok a b x -> Forall (room nf pf) x -> Forall thin x -> tube_diam nf pf gates x = Some d ->
  has x f -> has x g -> a <= t <= b -> (forall s, List.In s x -> ~ s_lb s < t < nf (s_lb s) /\ ~ pf (s_ub s) < t < s_ub s) ->
  exists w, traj_at d t = Some w /\ Rabs (f t - g t) <= w.
Proof.
  intros nf pf gates a b x d f g t Ok HR HT E Hf Hg Ht Gap. destruct (C115_diam nf pf gates a b x Ok HR HT) as (d' & E' & _ & K1 & K2 & K3 & K4 & K5).
  rewrite E in E'. injection E' as <-. assert (C := ok_chain _ _ _ Ok).
  assert (Cod : forall s, List.In s x -> s_lb s <= t <= s_ub s -> In (f t) (s_cod s) /\ In (g t) (s_cod s)).
  { assert (K : forall s h, List.In s x -> has x h -> s_lb s <= t <= s_ub s -> In (h t) (s_cod s)); [|intros s I B; split; apply K; auto]. intros s h I Hh B.
    assert (O := ok_slices _ _ _ Ok). rewrite Forall_forall in O. destruct (O s I) as (_ & _ & _ & S1 & S2). destruct (Hh s I) as (H1 & H2 & H3).
    destruct (Req_dec t (s_lb s)) as [->|N1]; [apply S1; auto|]. destruct (Req_dec t (s_ub s)) as [->|N2]; [apply S2; auto|]. apply H3. lra. }
  destruct (in_cod a b x f t Ok Hf Ht) as (s & Is & Bt & If & Ig). specialize (Ig g Hg). destruct (Gap s Is) as [G1 G2].
  assert (Cs : nf (s_lb s) <= t <= pf (s_ub s) \/ t = s_lb s \/ t = s_ub s) by lra.
  assert (Jn : forall l1 q q' l2, gates = false -> x = l1 ++ q :: q' :: l2 -> t = s_ub q -> exists w, traj_at d t = Some w /\ Rabs (f t - g t) <= w).
  { intros l1 q q' l2 Gf El ->. destruct (K3 Gf l1 q q' l2 El) as (v & w & w' & Ev & (W1 & _) & (W2 & _) & B). exists v. split; auto.
    assert (Iq : List.In q x) by (rewrite El; apply in_or_app; right; left; auto). assert (Iq' : List.In q' x) by (rewrite El; apply in_or_app; right; right; left; auto).
    assert (Ej : s_lb q' = s_ub q /\ s_lb q < s_ub q /\ s_lb q' < s_ub q'). { rewrite El in C. clear - C. revert a C. induction l1 as [|z l IH]; intros a C; cbn in C; [tauto|]. apply (IH (s_ub z)). tauto. }
    destruct (Cod q Iq) as [F1 F2]; [lra|]. destruct (Cod q' Iq') as [F3 F4]; [lra|]. specialize (W1 _ _ F1 F2). specialize (W2 _ _ F3 F4). cbn in W1, W2.
    assert (Z := Rmin_glb _ _ _ W1 W2). lra. }
  destruct Cs as [Cs|[Cs|Cs]].
  - destruct (K1 s t Is Cs) as (w & Ew & (W1 & _)). exists w. split; auto. apply W1; auto.
  - destruct gates.
    + destruct (K2 eq_refl t (s_in s)) as (w & Ew & (W1 & _)); [exists s; auto|]. exists w. split; auto. apply W1; rewrite Cs; [apply (Hf s Is)|apply (Hg s Is)].
    + destruct (in_split _ _ Is) as (l1 & l2 & El). assert (L1 : l1 = [] \/ exists l q, l1 = l ++ [q]) by (destruct l1 as [|z zs]; auto; right; destruct (@exists_last _ (z :: zs)) as (l & q & El'); [discriminate|eauto]).
      destruct L1 as [->|(l & q & ->)].
      * destruct (K4 eq_refl s l2 El) as (w & Ew & (W1 & _)). rewrite El in C. destruct C as (Ea & _). exists w. split; [rewrite Cs, Ea; auto|]. apply W1; auto.
      * rewrite <- app_assoc in El. cbn [app] in El. apply (Jn l q s l2 eq_refl El). rewrite Cs. rewrite El in C. clear - C. revert a C. induction l as [|z l IH]; intros a C; cbn in C; [tauto|]. apply (IH (s_ub z)). tauto.
  - destruct gates.
    + destruct (K2 eq_refl t (s_out s)) as (w & Ew & (W1 & _)); [exists s; auto|]. exists w. split; auto. apply W1; rewrite Cs; [apply (Hf s Is)|apply (Hg s Is)].
    + destruct (in_split _ _ Is) as (l1 & l2 & El). destruct l2 as [|q l2].
      * destruct (K5 eq_refl l1 s El) as (w & Ew & (W1 & _)). assert (Eb : s_ub s = b). { rewrite El in C. clear - C. revert a C. induction l1 as [|z l IH]; intros a C; cbn in C; [tauto|]. apply (IH (s_ub z)). tauto. }
        exists w. split; [rewrite Cs, Eb; auto|]. apply W1; auto.
      * apply (Jn l1 s q l2 eq_refl El Cs).
Qed.

(** C115: an unbounded codomain gives no trajectory of thicknesses (its thickness is infinite there). *)
Theorem C115_unbounded : forall nf pf gates x s, List.In s x -> is_unbounded (s_cod s) = true -> tube_diam nf pf gates x = None.
Proof.
  intros nf pf gates x s I U. assert (N : wd (s_cod s) = None) by (apply wd_none; auto).
  assert (K : forall l d, (exists t, List.In (None, t) l) -> sets l d = None).
  { induction l as [|[[y|] t] l IH]; intros d (u & Hu); cbn [sets]; auto; [destruct Hu|]. destruct Hu as [Hu|Hu]; [discriminate|]. destruct (traj_set y t d); auto. apply IH. eauto. }
  unfold tube_diam. destruct x as [|q r]; [destruct I|]. apply K. exists (nf (s_lb s)). right. clear K. revert I. generalize (q :: r) as x. induction x as [|z x IH]; intros I; [destruct I|].
  cbn [diam_loop]. apply in_or_app. destruct I as [->|I]; [left; unfold diam_calls; rewrite N; left; auto|right; auto].
Qed.

(** ** diam(v) *)
Lemma sets_keys l : forall d d', sets l d = Some d' -> forall t, is_key (t_map d') t <-> is_key (t_map d) t \/ exists y, List.In (y, t) l.
Proof.
  induction l as [|[[y|] t] l IH]; intros d d' E u; cbn [sets] in E; [inversion E; subst; split; [auto|intros [H|(z & [])]; auto]| |discriminate].
  destruct (traj_set y t d) as [d1|] eqn:E1; [|discriminate]. rewrite (IH _ _ E u), (set_map _ _ _ _ E1). clear.
  assert (K : is_key (put t y (t_map d)) u <-> is_key (t_map d) u \/ u = t).
  { unfold is_key. generalize (t_map d) as m. induction m as [|[k v] m IH]; cbn [put].
    - split; [intros (w & [H|H]); [inversion H; auto|destruct H]|intros [(w & H)|H]; [destruct H|subst; exists y; left; auto]].
    - destruct (Rltb t k) eqn:L; [|destruct (Reqb k t) eqn:Q].
      + split; [intros (w & [H|H]); [inversion H; auto|left; eauto]|intros [(w & H)| ->]; [exists w; right; auto|exists y; left; auto]].
      + apply Reqb_true in Q. subst k. split.
        * intros (w & [H|H]); [inversion H; auto|left; exists w; right; auto].
        * intros [(w & [H|H])| ->]; [inversion H; subst; exists y; left; auto|exists w; right; auto|exists y; left; auto].
      + split.
        * intros (w & [H|H]); [left; exists w; left; auto|]. destruct (proj1 IH) as [(w' & H')|H']; [eauto|left; exists w'; right; auto|auto].
        * intros [(w & [H|H])|H]; [exists w; left; auto| |]; [destruct (proj2 IH) as (w' & H'); [left; eauto|exists w'; right; auto]|destruct (proj2 IH) as (w' & H'); [right; auto|exists w'; right; auto]]. }
  rewrite K. split.
  - intros [[H|H]|(z & H)]; [auto|subst; right; exists (Some y); left; auto|right; exists z; right; auto].
  - intros [H|(z & [H|H])]; [auto|inversion H; auto|right; eauto].
Qed.
Lemma combine_calls poly ip : forall x v y t, List.In (y, t) (diam_v_loop poly ip x v) <-> exists s sv p, List.In (s, sv) (combine x v) /\ List.In p (poly s sv) /\ t = snd p /\ y = wd (ip (fst p) s sv).
Proof.
  induction x as [|s x IH]; intros [|sv v] y t; cbn [diam_v_loop combine]; try (split; [intros []|intros (? & ? & ? & [] & _)]).
  rewrite in_app_iff, in_map_iff, IH. split.
  - intros [(p & Ep & Ip)|(s' & sv' & p & I1 & I2)]; [inversion Ep; subst; exists s, sv, p; repeat split; auto; left; auto|exists s', sv', p; split; [right; auto|auto]].
  - intros (s' & sv' & p & [E|I1] & I2 & E1 & E2); [inversion E; subst; left; exists p; auto|right; exists s', sv', p; auto].
Qed.
(** C115: the instants of diam(v) are the second coordinates, that is the values, of the vertices of the polygons of the slices. *)
Theorem C115_diam_v : forall poly ip x v d, tube_diam_v poly ip x v = Some d -> forall t,
  is_key (t_map d) t <-> exists s sv p, List.In (s, sv) (combine x v) /\ List.In p (poly s sv) /\ t = snd p.
Proof.
  intros poly ip x v d E t. unfold tube_diam_v in E. rewrite (sets_keys _ _ _ E t). split.
  - intros [(y & [])|(y & H)]. apply combine_calls in H. destruct H as (s & sv & p & H1 & H2 & H3 & _). exists s, sv, p. auto.
  - intros (s & sv & p & H1 & H2 & H3). right. exists (wd (ip (fst p) s sv)). apply combine_calls. exists s, sv, p. auto.
Qed.

(** ** diag() *)
Definition sumsq (l : list R) : R := fold_right (fun v acc => v * v + acc) 0 l.
Lemma sq_fold t : forall sel acc, fold_left (fun acc x => match acc, traj_at x t with Some a, Some v => Some (a + v * v) | _, _ => None end) sel acc =
  match acc, fold_right (fun x acc => match traj_at x t, acc with Some v, Some l => Some (v :: l) | _, _ => None end) (Some []) sel with Some a, Some l => Some (a + sumsq l) | _, _ => None end.
Proof.
  induction sel as [|x sel IH]; intros acc; cbn [fold_left fold_right]; [destruct acc as [z|]; [|reflexivity]; unfold sumsq; cbn [fold_right]; rewrite Rplus_0_r; reflexivity|]. rewrite IH. destruct acc as [a|]; auto.
  destruct (traj_at x t) as [v|]; auto. destruct (fold_right _ _ sel) as [l|]; auto. unfold sumsq. cbn [fold_right]. f_equal. lra.
Qed.
Definition vals_at (sel : list traj) (t : R) (l : list R) : Prop := Forall2 (fun x v => traj_at x t = Some v) sel l.
Lemma vals_fold t sel l : vals_at sel t l -> fold_right (fun x acc => match traj_at x t, acc with Some v, Some l => Some (v :: l) | _, _ => None end) (Some []) sel = Some l.
Proof. induction 1 as [|x v sel l E _ IH]; cbn [fold_right]; auto. rewrite E, IH. auto. Qed.
Lemma diag_loop_ok sel : forall ks a d, traj_ok d -> Forall (fun e => fst e <= a) (t_map d) -> incr a (map (fun t => (t, 0)) ks) ->
  (forall t, List.In t ks -> exists l, vals_at sel t l) ->
  exists d', diag_loop sel ks d = Some d' /\ traj_ok d' /\ forall t y, List.In (t, y) (t_map d') <-> List.In (t, y) (t_map d) \/ (List.In t ks /\ exists l, vals_at sel t l /\ y = sqrt (sumsq l)).
Proof.
  induction ks as [|t ks IH]; intros a d Ok F I V; cbn [diag_loop].
  - exists d. split; auto. split; auto. intros u y. split; [auto|intros [H|[[] _]]; auto].
  - cbn [map incr] in I. destruct I as [I1 I2]. destruct (V t) as (l & Vl); [left; auto|]. rewrite sq_fold, (vals_fold t sel l Vl). destruct (set_def (sqrt (0 + sumsq l)) t d Ok) as (d1 & E). rewrite E.
    assert (Ok1 := ok_set _ _ _ _ Ok E). assert (M1 := set_map _ _ _ _ E). assert (P : put t (sqrt (0 + sumsq l)) (t_map d) = t_map d ++ [(t, sqrt (0 + sumsq l))]). { apply put_end. eapply Forall_impl; [|exact F]. intros e He. cbn in *. lra. }
    rewrite P in M1. destruct (IH t d1 Ok1) as (d' & E' & Ok' & M'); auto.
    + rewrite M1. apply Forall_app. split; [|constructor; auto; cbn; lra]. eapply Forall_impl; [|exact F]. intros e He. cbn in *. lra.
    + intros u Hu. apply V. right; auto.
    + exists d'. split; auto. split; auto. intros u y. rewrite M', M1, in_app_iff. rewrite Rplus_0_l. split.
      * intros [[H|[H|[]]]|[H1 H2]]; [auto|inversion H; subst; right; split; [left; auto|eauto]|right; split; [right; auto|auto]].
      * intros [H|[[->|H1] (l' & V' & ->)]]; [auto| |right; eauto]. left. right. left. f_equal. f_equal. f_equal. clear - Vl V'. unfold vals_at in *. revert l' V'. induction Vl as [|z1 u1 sel1 l1 Ez Vl IHz]; intros m' V'; inversion V'; subst; auto. f_equal; [congruence|auto].
Qed.
Lemma sorted_incr m : sorted m -> forall a, (forall k, is_key m k -> a < k) -> incr a (map (fun t => (t, 0)) (map fst m)).
Proof.
  induction m as [|[k v] m IH]; intros S a H; cbn [map incr fst]; auto. split; [apply H; exists v; left; auto|]. apply IH; [eapply sorted_tail; eauto|].
  intros k' (v' & H'). eapply sorted_head; eauto.
Qed.
Lemma diams_fold nf pf gates v : (forall x, List.In x v -> exists d, tube_diam nf pf gates x = Some d) ->
  exists ds, fold_right (fun x acc => match tube_diam nf pf gates x, acc with Some d, Some l => Some (d :: l) | _, _ => None end) (Some []) v = Some ds /\ Forall2 (fun x d => tube_diam nf pf gates x = Some d) v ds.
Proof.
  induction v as [|x v IH]; intros H; cbn [fold_right]; [exists []; auto|]. destruct (H x) as (d & E); [left; auto|]. destruct IH as (ds & E1 & F1); [intros y Hy; apply H; right; auto|].
  rewrite E, E1. exists (d :: ds). auto.
Qed.
(** C115: diag(i,j) has the instants of the thickness of the first component; at each of them its value is the diagonal of the box whose sides
    are the thicknesses of the components i to j. *)
Theorem C115_diag : forall nf pf gates a b st en v, (st <= en < length v)%nat -> (forall x, List.In x v -> tube_ok a b x /\ Forall (room nf pf) x /\ Forall thin x) ->
  exists d d0 ds, tv_diag nf pf gates st en v = Some d /\ Forall2 (fun x d => tube_diam nf pf gates x = Some d) v (d0 :: ds) /\
  (forall t, is_key (t_map d) t <-> is_key (t_map d0) t) /\
  forall t, is_key (t_map d0) t -> exists l, vals_at (firstn (S en - st) (skipn st (d0 :: ds))) t l /\ traj_at d t = Some (sqrt (sumsq l)).
Proof.
  intros nf pf gates a b st en v Hi H. destruct (diams_fold nf pf gates v) as (ds & E & F).
  { intros x Hx. destruct (H x Hx) as (Ok & R & T). destruct (C115_diam nf pf gates a b x Ok R T) as (d & E & _). eauto. }
  destruct ds as [|d0 ds]; [inversion F; subst; cbn in Hi; lia|].
  assert (V : forall t, a <= t <= b -> exists l, vals_at (firstn (S en - st) (skipn st (d0 :: ds))) t l).
  { intros t Ht. assert (FF : Forall (fun d => exists v, traj_at d t = Some v) (firstn (S en - st) (skipn st (d0 :: ds)))).
    { apply Forall_forall. intros d Hd. assert (Hd' : List.In d (d0 :: ds)) by (rewrite <- (firstn_skipn st (d0 :: ds)); apply in_or_app; right; rewrite <- (firstn_skipn (S en - st) (skipn st (d0 :: ds))); apply in_or_app; left; auto).
      assert (X : exists x, List.In x v /\ tube_diam nf pf gates x = Some d). { clear - F Hd'. revert F Hd'. generalize (d0 :: ds) as l. induction 1 as [|x z v l Ez F IH]; intros [].  { subst. exists x. split; auto. left; auto. } destruct IH as (x' & I & E); auto. exists x'. split; auto. right; auto. }
      destruct X as (x & Ix & Ex). destruct (H x Ix) as (Ok & R & T). destruct (C115_diam nf pf gates a b x Ok R T) as (d' & E' & D & _). rewrite Ex in E'. injection E' as <-. apply D; auto. }
    clear - FF. induction FF as [|d l (u & Hu) _ (r & IH)]; [exists []; constructor|exists (u :: r); constructor; auto]. }
  inversion F as [|x0 ? v' ? E0 F']; subst. destruct (H x0) as (Ok & R & T); [left; auto|]. destruct (diam_samples nf pf gates a b x0 Ok R T) as (dd & s & r & _ & Ed & Okd & M). rewrite E0 in Ed. injection Ed as <-.
  assert (Kb : forall k, is_key (t_map d0) k -> a <= k <= b). { intros k (y & Hy). rewrite M in Hy. assert (C := PropsIntegral.chain_le _ _ _ (ok_chain _ _ _ Ok)). destruct Hy as [Hy|Hy]; [inversion Hy; subst; lra|]. apply (mp_keys nf pf gates x0 a b _ (ok_chain _ _ _ Ok) R) in Hy. cbn in Hy. lra. }
  destruct (diag_loop_ok (firstn (S en - st) (skipn st (d0 :: ds))) (map fst (t_map d0)) (a - 1) traj_new) as (d & Eg & Okg & Mg).
  { apply ok_new. } { constructor. }
  { apply sorted_incr; [apply Okd|]. intros k Hk. apply Kb in Hk. lra. }
  { intros t Ht. apply V. apply in_map_iff in Ht. destruct Ht as ([k y] & <- & Hk). apply Kb. exists y. auto. }
  assert (KK : forall t, List.In t (map fst (t_map d0)) <-> is_key (t_map d0) t). { intros t. rewrite in_map_iff. unfold is_key. split; [intros ([k y] & <- & Hk); eauto|intros (y & Hy); exists (t, y); auto]. }
  exists d, d0, ds. split; [|split; [auto|split]].
  - unfold tv_diag. rewrite (proj2 (Nat.leb_le _ _)) by lia. rewrite (proj2 (Nat.ltb_lt _ _)) by lia. cbn [andb]. rewrite E. exact Eg.
  - intros t. split.
    + intros (y & Hy). apply Mg in Hy. destruct Hy as [[]|[Hy _]]. apply KK. auto.
    + intros Hk. destruct (V t (Kb t Hk)) as (l & Hl). exists (sqrt (sumsq l)). apply Mg. right. split; [apply KK; auto|eauto].
  - intros t Hk. destruct (V t (Kb t Hk)) as (l & Hl). exists l. split; auto. destruct (C34_eval d (ok_sampled d Okg)) as (K1 & _). apply K1. apply Mg. right. split; [apply KK; auto|eauto].
Qed.

(** ** Examples and refutations *)
Definition exn (t : R) : R := t + 1 / 10.
Definition exp_ (t : R) : R := t - 1 / 10.
Lemma tA_room : Forall (room exn exp_) tA.
Proof. unfold tA, exn, exp_. repeat (constructor; [unfold room; cbn; lra|]). constructor. Qed.
Lemma tA_thin : Forall thin tA.
Proof. unfold tA. repeat (constructor; [reflexivity|]). constructor. Qed.
Example C115_diam_ex : tube_ok 0 2 tA /\ Forall (room exn exp_) tA /\ Forall thin tA /\ exists d, tube_diam exn exp_ true tA = Some d /\ traj_at d (1 / 2) = Some 2 /\ traj_at d 1 = Some 1.
Proof.
  split; [exact tA_ok|]. split; [exact tA_room|]. split; [exact tA_thin|]. destruct (diam_samples exn exp_ true 0 2 tA tA_ok tA_room tA_thin) as (d & s & r & Ex & E & Okd & M). inversion Ex; subst s r.
  exists d. split; auto. assert (Sd := ok_sampled d Okd). unfold tA, exn, exp_, W, wd, I2 in M. cbn in M. split.
  - rewrite (at_const d [(0, 1 - 0)] (0 + 1 / 10) (1 - 1 / 10) (2 - 0) _ (1 / 2) Sd M); [f_equal; lra|lra].
  - destruct (C34_eval d Sd) as (K & _). rewrite (K 1 (2 - 1)); [f_equal; lra|]. rewrite M. cbn. auto 10.
Qed.
Example C115_distance_ex : has tA fA /\ forall s, List.In s tA -> ~ s_lb s < 1 < exn (s_lb s) /\ ~ exp_ (s_ub s) < 1 < s_ub s.
Proof. split; [exact tA_fA|]. unfold tA, exn, exp_. intros s [<-|[<-|[]]]; cbn; lra. Qed.
Example C115_unbounded_ex : tube_diam exn exp_ true [mkS 0 1 ALL ALL ALL] = None.
Proof. apply (C115_unbounded _ _ _ _ (mkS 0 1 ALL ALL ALL)); [left; auto|reflexivity]. Qed.
Example C115_diag_ex : (0 <= 1 < length [tA; tA])%nat /\ forall x, List.In x [tA; tA] -> tube_ok 0 2 x /\ Forall (room exn exp_) x /\ Forall thin x.
Proof. split; [cbn; lia|]. intros x Hx. assert (E : x = tA) by (destruct Hx as [<-|[<-|[]]]; auto). subst x. split; [exact tA_ok|]. split; [exact tA_room|exact tA_thin]. Qed.

(** between a bound and the next sample the interpolated thickness can be too small; for doubles there is no instant there *)
Definition dX : tube := [mkS 0 1 (I2 0 2) (I2 0 0) (I2 0 0)].
Theorem C115_gap_refuted : exists nf pf a b x d f g t w, tube_ok a b x /\ Forall (room nf pf) x /\ Forall thin x /\ tube_diam nf pf true x = Some d /\
  has x f /\ has x g /\ a <= t <= b /\ traj_at d t = Some w /\ w < Rabs (f t - g t).
Proof.
  assert (Ok : tube_ok 0 1 dX) by tube_ok_tac. assert (HR : Forall (room exn exp_) dX) by (unfold dX, exn, exp_; constructor; [unfold room; cbn; lra|constructor]).
  assert (HT : Forall thin dX) by (constructor; [reflexivity|constructor]).
  destruct (diam_samples exn exp_ true 0 1 dX Ok HR HT) as (d & s & r & Ex & E & Okd & M). inversion Ex; subst s r. assert (Sd := ok_sampled d Okd).
  unfold dX, exn, exp_, W, wd, I2 in M. cbn in M. destruct (C34_eval d Sd) as (_ & K & _).
  destruct (K [] 0 (0 - 0) (0 + 1 / 10) (2 - 0) _ (1 / 20) M) as (w & Ew & Lin & _); [lra|].
  exists exn, exp_, 0, 1, dX, d, (fun t => if Reqb t (1 / 20) then 2 else 0), (fun _ => 0), (1 / 20), w.
  split; auto. split; auto. split; auto. split; auto. split; [|split; [unfold dX; has_tac|split; [lra|split; [auto|]]]].
  - unfold dX. apply has_cons. split; [|apply has_nil]. split; [|split]; cbn [s_lb s_ub s_in s_out s_cod].
    + rewrite (proj2 (Reqb_false _ _)) by lra. cbn. lra.
    + rewrite (proj2 (Reqb_false _ _)) by lra. cbn. lra.
    + intros t _. destruct (Reqb t (1 / 20)); cbn; lra.
  - rewrite Reqb_refl. rewrite Rabs_right by lra. lra.
Qed.

(** diam(v): a tube over [0,1] of values [5,7] with derivative 0 has a thickness that is defined over [5,7] only *)
Definition vX : tube := [mkS 0 1 (I2 5 7) (I2 5 7) (I2 5 7)].
Definition vV : tube := [mkS 0 1 (I2 0 0) (I2 0 0) (I2 0 0)].
Theorem C115_diam_v_refuted : exists a b x v d, tube_ok a b x /\ tube_ok a b v /\ (exists f, has x f) /\ tube_diam_v polygon_0 interpol_0 x v = Some d /\
  forall t, a <= t <= b -> traj_at d t = None.
Proof.
  assert (Ed : exists d, tube_diam_v polygon_0 interpol_0 vX vV = Some d).
  { assert (K : forall l d, traj_ok d -> (forall y t, List.In (y, t) l -> y <> None) -> exists d', sets l d = Some d' /\ traj_ok d').
    { induction l as [|[[y|] t] l IH]; intros d Ok H; cbn [sets]; [eauto| |destruct (H None t); auto; left; auto]. destruct (set_def y t d Ok) as (d1 & E). rewrite E. apply IH; [eapply ok_set; eauto|]. intros y' t' H'. apply (H y' t'). right; auto. }
    destruct (K (diam_v_loop polygon_0 interpol_0 vX vV) traj_new ok_new) as (d & E & _); [|exists d; exact E].
    intros y t H. apply combine_calls in H. destruct H as (s & sv & p & [Is|[]] & Ip & _ & ->). inversion Is; subst. unfold polygon_0 in Ip. cbn in Ip. unfold interpol_0. cbn [s_lb s_ub s_in s_out].
    destruct Ip as [<-|[<-|[<-|[<-|[]]]]]; cbn [fst snd]; reval; discriminate. }
  destruct Ed as (d & Ed). exists 0, 1, vX, vV, d. split; [tube_ok_tac|]. split; [tube_ok_tac|]. split; [exists (fun _ => 6); unfold vX; has_tac|]. split; auto.
  intros t Ht. assert (Okd : traj_ok d). { clear - Ed. unfold tube_diam_v in Ed. assert (G : forall l d0, traj_ok d0 -> sets l d0 = Some d -> traj_ok d). { induction l as [|[[y|] u] l IH]; intros d0 Ok0 E; cbn [sets] in E; [inversion E; subst; auto| |discriminate]. destruct (traj_set y u d0) eqn:E1; [|discriminate]. eapply IH; [|eauto]. eapply ok_set; eauto. } exact (G _ _ ok_new Ed). }
  destruct (traj_at d t) as [w|] eqn:Et; auto. exfalso. destruct (C34_eval d (ok_sampled d Okd)) as (_ & _ & K3). assert (It : In t (t_dom d)) by (apply K3; eauto).
  destruct Okd as (_ & _ & (_ & _ & D2) & _). apply (D2 (I2 5 7)) in It; [cbn in It; lra|]. intros u Hu. apply (C115_diam_v _ _ _ _ _ Ed u) in Hu. destruct Hu as (s & sv & p & [Is|[]] & Ip & ->). inversion Is; subst.
  cbn in Ip. destruct Ip as [<-|[<-|[<-|[<-|[]]]]]; cbn; lra.
Qed.
Example C115_diam_v_ex : exists d, tube_diam_v polygon_0 interpol_0 vX vV = Some d /\ is_key (t_map d) 7.
Proof.
  assert (Ed : exists d, tube_diam_v polygon_0 interpol_0 vX vV = Some d).
  { unfold tube_diam_v, vX, vV, diam_v_loop, polygon_0. cbn [s_in s_out s_lb s_ub map app fst snd I2]. unfold interpol_0. cbn [s_in s_out s_lb s_ub]. reval. eexists. reflexivity. }
  destruct Ed as (d & Ed). exists d. split; auto. apply (C115_diam_v _ _ _ _ _ Ed 7). exists (mkS 0 1 (I2 5 7) (I2 5 7) (I2 5 7)), (mkS 0 1 (I2 0 0) (I2 0 0) (I2 0 0)), (1, 7). split; [left; reflexivity|]. split; [cbn; auto|reflexivity].
Qed.

Print Assumptions C115_diam.
Print Assumptions C115_distance.
Print Assumptions C115_unbounded.
Print Assumptions C115_diam_v.
Print Assumptions C115_diag.
Print Assumptions C115_gap_refuted.
Print Assumptions C115_diam_v_refuted.
