(** * Tubes of codac2: assignment on an interval, x([a,b]) = y, and at an instant (C67) *)

From Coq Require Import Reals Bool List Lra Lia Arith.
Import ListNotations.
From Verif Require Import Itv Concrete Codac2 PropsTDomain PropsTube2.
Open Scope R_scope.
Set Bullet Behavior "Strict Subproofs".

(** ** Sampling without gates, before the end of the domain *)
Definition before_end (t : R) (d : list tslice) : Prop := match d_ub d with Some u => t < u | None => True end.
(** where the values come from *)
Definition from (d : list tslice) (s : tslice) : Prop := ts_x s = ALL \/ exists s0, List.In s0 d /\ sub (ts_t s) (ts_t s0) /\ ts_x s = ts_x s0.
Lemma from_self d s : List.In s d -> from d s.
Proof. intros H. right. exists s. refine (conj H (conj _ eq_refl)). intros v; auto. Qed.
Lemma sample_false t d rl s r : partition d -> before_end t d -> sample 3 false t d = Some (rl, s, r) ->
  t_lb s = Some t /\ (forall q, List.In q (rev rl ++ s :: r) -> from d q) /\
  (forall l1 s1 r1 a, d = l1 ++ s1 :: r1 -> t_lb s1 = Some a -> a < t ->
     exists s1' r1', rev rl ++ s :: r = l1 ++ s1' :: r1' /\ t_lb s1' = Some a /\ is_gate s1' = is_gate s1).
Proof.
  intros P B E. pose proof P as (P1 & P2 & P3). rewrite sample_S in E. destruct d as [|s0 r0] eqn:D0; [discriminate|]. rewrite <- D0 in *.
  assert (Dl : d_lb d = t_lb s0) by (rewrite D0; reflexivity).
  assert (Low : (match d_lb d with Some l => Rleb t l | None => false end) = true -> forall l1 s1 r1 a, d = l1 ++ s1 :: r1 -> t_lb s1 = Some a -> a < t -> False).
  { intros H l1 s1 r1 a D La Lt. destruct (d_lb d) as [l|] eqn:Ed; [|discriminate]. apply Rleb_true in H. rewrite D in Ed, P2, P3. rewrite lb_split in Ed.
    destruct l1 as [|p l1]; [rewrite La in Ed; injection Ed as ->; lra|].
    destruct (linked_before (p :: l1) s1 r1 p P2 P3 ltac:(left; reflexivity)) as (u & v & U1 & V1 & W).
    destruct (ts_itv p) as [_ O]; [apply P2; left; reflexivity|]. specialize (O l u Ed U1). assert (v = a) by congruence. lra. }
  destruct (match d_lb d with Some l => Rleb t l | None => false end) eqn:C1.
  - specialize (Low eq_refl). destruct (is_gate s0 && opt_eqb (t_lb s0) (Some t)) eqn:C2.
    + injection E as <- <- <-. apply andb_true_iff in C2 as [_ C2]. apply opt_eqb_true in C2. cbn [rev app]. rewrite <- D0. refine (conj C2 (conj _ _)).
      * intros q Q. apply from_self, Q.
      * intros. exfalso. eapply Low; eassumption.
    + injection E as <- <- <-. refine (conj eq_refl (conj _ _)).
      * intros q [<-|Q]; [left; reflexivity|apply from_self, Q].
      * intros. exfalso. eapply Low; eassumption.
  - assert (C2 : (match d_ub d with Some u => Rltb u t | None => false end) = false).
    { unfold before_end in B. destruct (d_ub d); [|reflexivity]. apply Rltb_f. lra. }
    rewrite C2 in E. destruct (iterator_tslice t d) as [[[rl0 s1] r1]|] eqn:It; [|discriminate].
    assert (Td : In t (t0_tf d)).
    { unfold iterator_tslice in It. rewrite D0 in It. rewrite <- D0 in It. destruct (contains (t0_tf d) t) eqn:Ct; [apply contains_true, Ct|discriminate]. }
    destruct (iterator_spec t d P Td) as (rl' & s' & r' & It' & D & Hs & Hp & Hc). rewrite It in It'. injection It' as <- <- <-.
    assert (Ns : exists t, In t (ts_t s1)) by eauto. pose proof (proj1 (in_ts s1 t Ns) Hs) as [Ls Us].
    assert (Nu : opt_eqb (Some t) (d_ub d) = false).
    { apply opt_eqb_false. intros H. unfold before_end in B. rewrite <- H in B. lra. }
    cbn [negb andb] in E. rewrite Nu, orb_false_r in E. destruct (is_gate s1 || opt_eqb (t_lb s1) (Some t)) eqn:C3.
    + injection E as <- <- <-. rewrite <- D. refine (conj _ (conj _ _)).
      * apply orb_true_iff in C3 as [C3|C3]; [|apply opt_eqb_true, C3]. apply (gate_true s1 Ns) in C3 as (c & A1 & A2). rewrite A1, A2 in *. cbn in *. f_equal. lra.
      * intros q Q. apply from_self, Q.
      * intros l1 s2 r2 a D2 La Lt. exists s2, r2. rewrite <- D2. auto.
    + apply orb_false_iff in C3 as [G1 C3]. apply opt_eqb_false in C3.
      set (A := TS (Itv (t_lb s1) (Some t)) (ts_x s1)) in *. set (Bq := TS (Itv (Some t) (t_ub s1)) (ts_x s1)) in *.
      assert (GA : is_gate A = false).
      { unfold is_gate, A. cbn. destruct (t_lb s1) as [c|]; [|reflexivity]. apply Reqb_f. intros ->. apply C3. reflexivity. }
      rewrite GA in E. injection E as <- <- <-. refine (conj eq_refl (conj _ _)).
      * cbn [rev]. rewrite <- app_assoc. intros q Q. apply in_app_iff in Q as [Q|[<-|[<-|Q]]].
        -- apply from_self. rewrite D. apply in_app_iff. auto.
        -- right. exists s1. refine (conj _ (conj _ eq_refl)); [rewrite D; apply mid_in|]. intros v V. apply (in_ts s1 v Ns). cbn in V. split; [apply V|].
           destruct (t_ub s1); cbn in *; [lra|exact I].
        -- right. exists s1. refine (conj _ (conj _ eq_refl)); [rewrite D; apply mid_in|]. intros v V. apply (in_ts s1 v Ns). cbn in V. split; [|apply V].
           destruct (t_lb s1); cbn in *; [lra|exact I].
        -- apply from_self. rewrite D. apply in_app_iff. right. right. exact Q.
      * intros l1 s2 r2 a D2 La Lt. cbn [rev]. rewrite <- app_assoc. cbn [app].
        destruct (le_lt_dec (length l1) (length (rev rl0))) as [H|H].
        -- destruct (split_le l1 (rev rl0) s2 r2 s1 r1) as (m & M1 & M2); [congruence|exact H|]. destruct m as [|c m].
           ++ injection M1 as -> ->. rewrite app_nil_r in M2. exists A, (Bq :: r1). rewrite M2. refine (conj eq_refl (conj La _)). congruence.
           ++ injection M1 as -> M1. exists c, (m ++ A :: Bq :: r1). rewrite M2, <- app_assoc. auto.
        -- exfalso. destruct (split_le (rev rl0) l1 s1 r1 s2 r2) as (m & M1 & M2); [congruence|lia|]. destruct m as [|c m]; [rewrite app_nil_r in M2; rewrite M2 in H; lia|].
           injection M1 as -> M1. rewrite D, M1 in P2, P3.
           destruct (linked_after (rev rl0) c (m ++ s2 :: r2) s2 P2 P3) as (u & v & U1 & V1 & W); [apply mid_in|]. rewrite U1 in Us. cbn in Us. assert (v = a) by congruence. lra.
Qed.

(** ** The loop *)
Section Loop.
Variable y : itv.
Hypothesis Wy : wf y.
Hypothesis Ny : is_empty y = false.
Definition upd1 (a b : tslice) : Prop := ts_t a = ts_t b /\ (ts_x b = ts_x a \/ (sub y (ts_x a) /\ ts_x b = y)).
Lemma upd_refl l : Forall2 upd1 l l. Proof. induction l; constructor; [split; auto|assumption]. Qed.
Lemma upd_mg l : (match l with p :: _ => sub y (ts_x p) | [] => True end) -> Forall2 upd1 l (mg y l).
Proof.
  destruct l as [|p l]; intros H; [constructor|]. cbn. destruct (is_gate p); [|apply upd_refl]. constructor; [|apply upd_refl].
  split; [reflexivity|]. right. split; [exact H|]. cbn. rewrite inter_comm. apply inter_sub_eq; assumption.
Qed.
Lemma upd_times l l' : Forall2 upd1 l l' -> times l' = times l.
Proof. induction 1 as [|a b l l' [H _]]; [reflexivity|]. unfold times in *. cbn. congruence. Qed.
Lemma set_step rl s r : (match rl with p :: _ => sub y (ts_x p) | [] => True end) -> (match r with p :: _ => sub y (ts_x p) | [] => True end) ->
  exists rl' r', slice_set y (rl, s, r) = (rl', set_x s y, r') /\ Forall2 upd1 rl rl' /\ Forall2 upd1 r r'.
Proof.
  intros Hl Hr. destruct (is_gate s) eqn:G.
  - exists rl, r. refine (conj _ (conj (upd_refl _) (upd_refl _))). unfold slice_set.
    assert (E : forall l, (match l with p :: _ => sub y (ts_x p) | [] => True end) -> set_side l (set_x s y) = (set_x s y, l)).
    { intros [|p l] H; [reflexivity|]. cbn [set_side]. rewrite set_x_gate, G. cbn [set_x ts_x]. rewrite (inter_sub_eq y _ Wy H). reflexivity. }
    rewrite (E rl Hl), (E r Hr). unfold slice_is_empty. rewrite set_x_gate, G. cbn [set_x ts_x]. rewrite Ny. reflexivity.
  - exists (mg y rl), (mg y r). refine (conj _ (conj (upd_mg rl Hl) (upd_mg r Hr))). rewrite (set_slice y Ny rl s r G).
    assert (B : forall l, (match l with p :: _ => sub y (ts_x p) | [] => True end) -> bad y l = false).
    { intros [|p l] H; [reflexivity|]. cbn. rewrite inter_comm, (inter_sub_eq y _ Wy H). exact Ny. }
    rewrite (B rl Hl), (B r Hr). reflexivity.
Qed.
Lemma at_index_mid L : forall rl s r, at_index (length L) rl (L ++ s :: r) = Some (rev_append L rl, s, r).
Proof. induction L as [|a L IH]; intros rl s r; [reflexivity|]. cbn. apply IH. Qed.
Lemma rev_app_nil (L : list tslice) : rev_append L [] = rev L. Proof. rewrite rev_append_rev. apply app_nil_r. Qed.
Lemma upd_sub T l l' : Forall2 upd1 l l' -> (forall q, List.In q l -> T (ts_t q) -> sub y (ts_x q)) -> forall q, List.In q l' -> T (ts_t q) -> sub y (ts_x q).
Proof.
  induction 1 as [|a b l l' [H1 H2] F IH]; intros A q Q; [destruct Q|]. destruct Q as [<-|Q].
  - rewrite <- H1. intros Tb. destruct H2 as [->|[_ ->]]; [apply A; [left; reflexivity|exact Tb]|intros v; auto].
  - apply IH; [|exact Q]. intros q' Q'. apply A. right. exact Q'.
Qed.
Lemma loop_spec (T : itv -> Prop) f : forall n M L Rr, (length M <= n)%nat -> M <> [] -> good_times (L ++ M ++ Rr) ->
  (forall q, List.In q (L ++ M ++ Rr) -> T (ts_t q) -> sub y (ts_x q)) ->
  (forall q, List.In q M -> T (ts_t q)) -> (match rev L with p :: _ => T (ts_t p) | [] => True end) -> (match Rr with p :: _ => T (ts_t p) | [] => True end) ->
  exists d', assign_loop n y (length L) (length L + length M - 1) (L ++ M ++ Rr) = Some d' /\ times d' = times (L ++ M ++ Rr) /\
    (traj_in f d' <-> traj_in f (L ++ M ++ Rr) /\ forall q t, List.In q M -> In t (ts_t q) -> In (f t) y).
Proof.
  induction n as [|n IH]; intros M L Rr Ln NM G Su TM TL TR; (destruct M as [|m M]; [congruence|]); [cbn in Ln; lia|]. cbn [assign_loop app].
  rewrite at_index_mid, rev_app_nil.
  assert (Sm : sub y (ts_x m)) by (apply Su; [apply in_app_iff; right; left; reflexivity|apply TM; left; reflexivity]).
  destruct (set_step (rev L) m (M ++ Rr)) as (rl' & r' & E & U1 & U2).
  { destruct (rev L) as [|p rL] eqn:RL; [exact I|]. apply Su; [|exact TL]. apply in_app_iff. left. apply in_rev. rewrite RL. left. reflexivity. }
  { destruct M as [|m2 M]; cbn [app].
    - destruct Rr as [|q Rr]; [exact I|]. apply Su; [|exact TR]. apply in_app_iff. right. right. left. reflexivity.
    - apply Su; [|apply TM; right; left; reflexivity]. apply in_app_iff. right. right. left. reflexivity. }
  assert (G' : good_times (rev (rev L) ++ m :: M ++ Rr)) by (rewrite rev_involutive; exact G).
  pose proof (slice_set_traj f y (rev L) m (M ++ Rr) G') as X. rewrite E in X |- *. destruct X as (T1 & T2 & T3 & X).
  change (whole (rl', set_x m y, r')) with (rev_append rl' (set_x m y :: r')). rewrite rev_append_rev.
  rewrite rev_involutive in X.
  assert (X' : traj_in f (rev rl' ++ set_x m y :: r') <-> traj_in f (L ++ m :: M ++ Rr) /\ forall t, In t (ts_t m) -> In (f t) y).
  { rewrite X. rewrite <- (rev_involutive L), !traj_perm, !traj_cons2. cbn [set_x ts_t ts_x]. split.
    - intros (H1 & H2 & H3). repeat (split; try assumption). intros t Ht. apply Sm, H2, Ht.
    - intros ((H1 & H2 & H3) & H4). auto. }
  assert (Tm : times (rev rl' ++ set_x m y :: r') = times (L ++ m :: M ++ Rr)).
  { rewrite times_rev_app, T1. unfold times in *. cbn [map]. rewrite T3, map_rev, rev_involutive, !map_app. cbn [map set_x ts_t]. rewrite !map_app. reflexivity. }
  destruct M as [|m2 M].
  - assert (Qe : Nat.eqb (length L) (length L + length [m] - 1) = true) by (apply Nat.eqb_eq; cbn; lia). rewrite Qe; clear Qe.
    eexists. refine (conj eq_refl (conj Tm _)). rewrite X'. split; intros [H1 H2]; (split; [exact H1|]).
    + intros q t [<-|[]]. apply H2.
    + intros t. apply (H2 m t). left. reflexivity.
  - assert (Qe : Nat.eqb (length L) (length L + length (m :: m2 :: M) - 1) = false) by (apply Nat.eqb_neq; cbn; lia). rewrite Qe; clear Qe.
    apply Forall2_app_inv_l in U2 as (M' & R' & UM & UR & ->).
    assert (LL : length (rev rl' ++ [set_x m y]) = S (length L)).
    { rewrite app_length, rev_length, (len_times _ _ T1), rev_length. cbn. lia. }
    assert (LM : length M' = length (m2 :: M)) by (apply len_times, upd_times, UM).
    assert (Ea : rev rl' ++ set_x m y :: M' ++ R' = (rev rl' ++ [set_x m y]) ++ M' ++ R') by (rewrite <- app_assoc; reflexivity).
    rewrite Ea in *.
    destruct (IH M' (rev rl' ++ [set_x m y]) R') as (d' & D1 & D2 & D3).
    + rewrite LM. cbn in *. lia.
    + intros ->. discriminate.
    + apply (times_good (L ++ m :: (m2 :: M) ++ Rr)); [symmetry; exact Tm|exact G].
    + assert (SL : forall q, List.In q rl' -> T (ts_t q) -> sub y (ts_x q)).
      { apply (upd_sub T (rev L)); [exact U1|]. intros q Q. apply Su. apply in_app_iff. left. apply in_rev, Q. }
      assert (SM : forall q, List.In q M' -> T (ts_t q) -> sub y (ts_x q)).
      { apply (upd_sub T (m2 :: M)); [exact UM|]. intros q Q. apply Su. apply in_app_iff. right. right. apply in_app_iff. left. exact Q. }
      assert (SR : forall q, List.In q R' -> T (ts_t q) -> sub y (ts_x q)).
      { apply (upd_sub T Rr); [exact UR|]. intros q Q. apply Su. apply in_app_iff. right. right. apply in_app_iff. right. exact Q. }
      intros q Q. apply in_app_iff in Q as [Q|Q]; [apply in_app_iff in Q as [Q|[<-|[]]]|apply in_app_iff in Q as [Q|Q]].
      * apply SL, in_rev, Q.
      * intros _ v V. exact V.
      * apply SM, Q.
      * apply SR, Q.
    + intros q Q. assert (Q2 : exists q0, List.In q0 (m2 :: M) /\ ts_t q = ts_t q0).
      { assert (Q3 : List.In (ts_t q) (times M')) by (apply List.in_map, Q). rewrite (upd_times _ _ UM) in Q3.
        apply in_map_iff in Q3 as (q0 & E0 & Q0). eauto. }
      destruct Q2 as (q0 & Q0 & ->). apply TM. right. exact Q0.
    + rewrite rev_app_distr. cbn. apply TM. left. reflexivity.
    + apply upd_times in UR. destruct Rr as [|q Rr], R' as [|q' R']; try discriminate; [exact I|]. cbn in UR. injection UR as -> _. exact TR.
    + exists d'. rewrite LL, LM in D1. assert (Ej : (S (length L) + length (m2 :: M) - 1 = length L + length (m :: m2 :: M) - 1)%nat) by (cbn; lia).
      rewrite Ej in D1. refine (conj D1 (conj (eq_trans D2 Tm) _)). rewrite D3, X'. split.
      * intros [[H1 H2] H3]. split; [exact H1|]. intros q t [<-|Q]; [apply H2|]. assert (Q3 : List.In (ts_t q) (times M')) by (rewrite (upd_times _ _ UM); apply List.in_map, Q).
        apply in_map_iff in Q3 as (q0 & E0 & Q0). rewrite <- E0. apply H3, Q0.
      * intros [H1 H2]. refine (conj (conj H1 _) _); [intros t; apply H2; left; reflexivity|]. intros q t Q.
        assert (Q3 : List.In (ts_t q) (times M')) by (apply List.in_map, Q). rewrite (upd_times _ _ UM) in Q3.
        apply in_map_iff in Q3 as (q0 & E0 & Q0). rewrite <- E0. apply H2. right. exact Q0.
Qed.
End Loop.

Lemma linked_prefix A B : linked (A ++ B) -> linked A.
Proof. induction A as [|x A IH]; intros H; [exact I|]. destruct A as [|x' A]; [exact I|]. destruct H as [H1 H2]. split; [exact H1|apply IH, H2]. Qed.
Lemma linked_suffix A B : linked (A ++ B) -> linked B.
Proof. induction A as [|x A IH]; intros H; [exact H|]. apply IH. cbn [app] in H. destruct (A ++ B); [exact I|apply H]. Qed.
Lemma cover t : forall M, linked M -> M <> [] -> (forall q, List.In q M -> exists t, In t (ts_t q)) -> lo_le (d_lb M) t -> le_hi t (d_ub M) -> exists q, List.In q M /\ In t (ts_t q).
Proof.
  induction M as [|m M IH]; intros L N H Lt Ut; [congruence|]. assert (Nm : exists t, In t (ts_t m)) by (apply H; left; reflexivity).
  destruct (In_dec t (ts_t m)) as [I|I]; [exists m; split; [left; reflexivity|exact I]|].
  destruct M as [|m2 M]; [exfalso; apply I; apply (in_ts m t Nm); split; assumption|].
  change (link m m2 /\ linked (m2 :: M)) in L. destruct L as [[(u & U1 & U2) _] L].
  destruct IH as (q & Q1 & Q2); [exact L|discriminate|intros q Q; apply H; right; exact Q| |change (m :: m2 :: M) with ([m] ++ m2 :: M) in Ut; rewrite d_ub_app in Ut; exact Ut|].
  - cbn. rewrite U2. cbn. rewrite (in_ts m t Nm), U1 in I. apply Rnot_lt_le. intros X. apply I. split; [exact Lt|]. cbn. lra.
  - exists q. split; [right; exact Q1|exact Q2].
Qed.
(** x([a,b]) = y, with b before the end of the domain and an old content that contains y around [a,b]: a and b become
    bounds, and the trajectories of x are those that take their values in y on [a,b], the others being unchanged. *)
Theorem C67_partial : forall y a b d, wf y -> y <> Emp -> partition d -> a < b -> before_end b d ->
  (forall s, List.In s d -> (exists t, a <= t <= b /\ In t (ts_t s)) -> sub y (ts_x s)) ->
  exists d', assign_itv y a b d = Some d' /\ partition d' /\ bound d' a /\ bound d' b /\
    forall f, traj_in f d' <-> traj_in f d /\ forall t, a <= t <= b -> In (f t) y.
Proof.
  intros y a b d W Ny P Lab Be Su. apply is_empty_false in Ny.
  assert (Ba : before_end a d) by (unfold before_end in *; destruct (d_ub d); [lra|exact I]).
  destruct (C49_sample d a false P) as (rl & s & r & E1 & P1 & H1 & _ & B1 & _ & _ & F1). cbv zeta in *. rewrite whole_eq in *.
  destruct (sample_false a d rl s r P Ba E1) as (L1 & Fr1 & _).
  set (d1 := rev rl ++ s :: r) in *.
  assert (Bb : before_end b d1).
  { unfold before_end in *. unfold t0_tf in H1. destruct (d_ub d) as [u|].
    - destruct (d_lb d); cbn in H1; injection H1 as _ ->; rewrite Rmax_left by lra; exact Be.
    - destruct (d_lb d); cbn in H1; injection H1 as _ ->; exact I. }
  destruct (C49_sample d1 b false P1) as (rl2 & s2 & r2 & E2 & P2 & H2 & K2 & B2 & _ & _ & F2). cbv zeta in *. rewrite whole_eq in *.
  destruct (sample_false b d1 rl2 s2 r2 P1 Bb E2) as (L2 & Fr2 & Keep).
  set (d2 := rev rl2 ++ s2 :: r2) in *.
  destruct (Keep (rev rl) s r a eq_refl L1 Lab) as (s1 & r1 & D2 & Ls1 & Gs1). pose proof P2 as (P2a & P2b & P2c).
  assert (Ns1 : exists t, In t (ts_t s1)) by (apply P2b; rewrite D2; apply mid_in).
  assert (Ns2 : exists t, In t (ts_t s2)) by (apply P2b; apply mid_in).
  assert (Lm : exists m, s1 :: r1 = (s1 :: m) ++ s2 :: r2 /\ rev rl2 = rev rl ++ s1 :: m).
  { destruct (le_lt_dec (length (rev rl)) (length (rev rl2))) as [H|H].
    - destruct (split_le (rev rl) (rev rl2) s1 r1 s2 r2) as (m & M1 & M2); [rewrite <- D2; reflexivity|exact H|]. destruct m as [|c m].
      + injection M1 as M1 _. subst s2. exfalso. assert (a = b) by congruence. lra.
      + injection M1 as M1a M1. subst c. exists m. split; [rewrite M1; reflexivity|exact M2].
    - exfalso. destruct (split_le (rev rl2) (rev rl) s2 r2 s1 r1) as (m & M1 & M2); [exact D2|lia|].
      destruct m as [|c m]; [rewrite app_nil_r in M2; rewrite M2 in H; lia|]. injection M1 as M1a M1. subst c.
      assert (D3 : d2 = rev rl2 ++ s2 :: (m ++ s1 :: r1)) by (unfold d2; rewrite M1; reflexivity). rewrite D3 in P2b, P2c.
      destruct (linked_after (rev rl2) s2 _ s1 P2b P2c) as (u & v & U1 & V1 & X); [apply mid_in|]. destruct (ts_itv s2 Ns2) as [_ O]. specialize (O b u L2 U1).
      assert (v = a) by congruence. lra. }
  destruct Lm as (m & M1 & M2).
  (* the segment *)
  assert (Seg : exists L M, d2 = L ++ M ++ s2 :: r2 /\ M <> [] /\ d_lb M = Some a /\ length L = (if opt_eqb (t_ub s1) (Some a) then S (length rl) else length rl) /\
     (length L + length M = length rl2)%nat).
  { assert (Len : length rl2 = (length rl + S (length m))%nat) by (apply (f_equal (@length _)) in M2; rewrite app_length, !rev_length in M2; exact M2).
    assert (Dm : d2 = rev rl ++ (s1 :: m) ++ s2 :: r2) by (rewrite D2, M1; reflexivity).
    destruct (opt_eqb (t_ub s1) (Some a)) eqn:Q.
    - apply opt_eqb_true in Q. exists (rev rl ++ [s1]), m. rewrite app_length, rev_length. cbn [length].
      assert (X : exists m2 m', m = m2 :: m').
      { destruct m as [|m2 m']; [|eauto]. exfalso. rewrite Dm in P2c. cbn [app] in P2c. apply linked_app in P2c as [_ [[(u & U1 & U2) _] _]]. assert (u = a) by congruence. assert (u = b) by congruence. lra. }
      destruct X as (m2 & m' & ->). refine (conj _ (conj _ (conj _ (conj _ _)))).
      + rewrite Dm, <- app_assoc. reflexivity.
      + discriminate.
      + rewrite Dm in P2c. cbn [app] in P2c. apply linked_app in P2c as [_ [[(u & U1 & U2) _] _]]. cbn. congruence.
      + lia.
      + rewrite Len. cbn. lia.
    - exists (rev rl), (s1 :: m). rewrite rev_length. refine (conj Dm (conj _ (conj Ls1 (conj eq_refl _)))); [discriminate|]. rewrite Len. reflexivity. }
  destruct Seg as (L & M & DM & NM & LbM & LenL & LenM).
  set (T := fun i : itv => exists t, a <= t <= b /\ In t i).
  assert (Sup : forall q, List.In q d2 -> T (ts_t q) -> sub y (ts_x q)).
  { intros q Q (t & Ht & It). destruct (Fr2 q Q) as [X|(q1 & Q1 & X1 & X2)]; [rewrite X; intros v _; split; exact I|]. rewrite X2.
    destruct (Fr1 q1 Q1) as [X|(q0 & Q0 & X3 & X4)]; [rewrite X; intros v _; split; exact I|]. rewrite X4. apply Su; [exact Q0|]. exists t. split; [exact Ht|]. apply X3, X1, It. }
  assert (Gd : good_times d2) by (split; assumption).
  (* times of the segment *)
  assert (UbM : d_ub M = Some b).
  { destruct (exists_last NM) as (M' & z & EM). rewrite EM in *. rewrite d_ub_last. rewrite DM in P2c. rewrite <- app_assoc, app_assoc in P2c.
    apply linked_app in P2c as [_ [[(u & U1 & U2) _] _]]. congruence. }
  assert (LkM : linked M).
  { rewrite DM in P2c. apply linked_suffix in P2c. apply linked_prefix in P2c. exact P2c. }
  assert (NeM : forall q, List.In q M -> exists t, In t (ts_t q)).
  { intros q Q. apply P2b. rewrite DM. apply in_app_iff. right. apply in_app_iff. left. exact Q. }
  assert (Inside : forall q t, List.In q M -> In t (ts_t q) -> a <= t <= b).
  { intros q t Q It. apply in_split in Q as (l & l' & E). assert (PM : partition (l ++ q :: l')) by (rewrite <- E; exact (conj NM (conj NeM LkM))).
    pose proof (in_dom t l q l' PM It) as X. rewrite <- E in X. unfold t0_tf in X. rewrite LbM, UbM in X. exact X. }
  assert (TM : forall q, List.In q M -> T (ts_t q)).
  { intros q Q. destruct (NeM q Q) as [t It]. exists t. split; [apply (Inside q t Q It)|exact It]. }
  assert (TL : match rev L with p :: _ => T (ts_t p) | [] => True end).
  { destruct (list_eq_dec_nil L) as [->|(L' & z & ->)]; [exact I|]. rewrite rev_app_distr. cbn. rewrite DM in P2b, P2c. rewrite <- app_assoc in P2b, P2c. cbn [app] in P2b, P2c.
    destruct M as [|m1 M']; [congruence|]. apply linked_app in P2c as [_ [[(u & U1 & U2) _] _]]. cbn in LbM. assert (u = a) by congruence. subst u.
    assert (Nz : exists t, In t (ts_t z)) by (apply P2b, mid_in). exists a. split; [lra|]. apply (in_ts z a Nz). rewrite U1. cbn. split; [|lra].
    destruct (ts_itv z Nz) as [_ O]. destruct (t_lb z); cbn; [apply O; auto|exact I]. }
  assert (TR : T (ts_t s2)).
  { exists b. split; [lra|]. apply (in_ts s2 b Ns2). rewrite L2. cbn. split; [lra|]. destruct (ts_itv s2 Ns2) as [_ O]. destruct (t_ub s2); cbn; [apply O; auto|exact I]. }
  rewrite DM in Sup, Gd.
  assert (Run : assign_itv y a b d = assign_loop (length d2) y (length L) (length L + length M - 1) (L ++ M ++ s2 :: r2)).
  { unfold assign_itv. rewrite E1. cbn [index]. change (whole (rl, s, r)) with (rev_append rl (s :: r)). rewrite rev_append_rev. fold d1. rewrite E2.
    change (whole (rl2, s2, r2)) with (rev_append rl2 (s2 :: r2)). rewrite rev_append_rev. fold d2. cbn [index].
    destruct rl2 as [|p2 rl2]; [exfalso; cbn in LenM; destruct M; [congruence|cbn in LenM; lia]|]. cbn [length].
    assert (Ai : at_index (length rl) [] d2 = Some (rl, s1, r1)).
    { rewrite D2, <- (rev_length rl), at_index_mid, rev_app_nil, rev_involutive. reflexivity. }
    rewrite Ai, <- DM, LenL. assert (Ej : (length rl2 = length L + length M - 1)%nat) by (cbn in LenM; lia). rewrite Ej, <- LenL. reflexivity. }
  assert (Ln : (length M <= length d2)%nat) by (rewrite DM, !app_length; lia).
  destruct (loop_spec y W Ny T (fun _ => 0) (length d2) M L (s2 :: r2) Ln NM Gd Sup TM TL TR) as (d' & D1' & D2' & _).
  exists d'. assert (Pd' : partition d').
  { destruct (times_good (L ++ M ++ s2 :: r2) d') as [X1 X2]; [symmetry; exact D2'|exact Gd|]. refine (conj _ (conj X1 X2)). intros ->.
    rewrite <- DM in D2'. destruct d2; [congruence|discriminate]. }
  assert (Bd : forall t, bound d2 t -> bound d' t).
  { intros t (q & Q & X). rewrite <- DM in D2'. assert (Q3 : List.In (ts_t q) (times d')) by (rewrite D2'; apply List.in_map, Q).
    apply in_map_iff in Q3 as (q0 & E0 & Q0). exists q0. split; [exact Q0|]. unfold t_lb, t_ub in *. rewrite E0. exact X. }
  refine (conj (eq_trans Run D1') (conj Pd' (conj (Bd a (K2 a B1)) (conj (Bd b B2) _)))). intros f.
  destruct (loop_spec y W Ny T f (length d2) M L (s2 :: r2) Ln NM Gd Sup TM TL TR) as (d'' & D1'' & _ & X). assert (d'' = d') by congruence. subst d''.
  rewrite X, <- DM. rewrite (F1 f), (F2 f). fold d2. split; intros [X1 X2]; (split; [exact X1|]).
  - intros t Ht. destruct (cover t M LkM NM NeM) as (q & Q1 & Q2); [rewrite LbM; cbn; lra|rewrite UbM; cbn; lra|]. apply (X2 q t Q1 Q2).
  - intros q t Q It. apply X2, (Inside q t Q It).
Qed.

Definition u0 : tslice := TS (Itv (Some 0) (Some 5)) ALL.
Definition u1 : tslice := TS (Itv (Some 5) (Some 7)) ALL.
Definition u2 : tslice := TS (Itv (Some 7) (Some 10)) ALL.
Lemma u_ok : partition [u0; u1; u2].
Proof.
  assert (G0 : is_gate u0 = false) by (unfold is_gate; cbn; apply Reqb_f; lra). assert (G1 : is_gate u1 = false) by (unfold is_gate; cbn; apply Reqb_f; lra).
  refine (conj _ (conj _ _)); [discriminate| |].
  - intros s [<-|[<-|[<-|[]]]]; [exists 5|exists 5|exists 7]; cbn; lra.
  - cbn [linked]. split; [split; [exists 5; auto|intros [H _]; congruence]|]. split; [split; [exists 7; auto|intros [H _]; congruence]|exact I].
Qed.
(** x([5,10]) = 1 on a tube defined on [0,10], with the bounds 5 and 7: the values on [7,10] are not set. *)
Theorem C67_refuted : exists y a b d d', wf y /\ y <> Emp /\ partition d /\ a < b /\ In a (t0_tf d) /\ In b (t0_tf d) /\
  (forall s, List.In s d -> ts_x s = ALL) /\ assign_itv y a b d = Some d' /\
  exists f t, traj_in f d' /\ a < t < b /\ ~ In (f t) y.
Proof.
  exists (pt 1), 5, 10, [u0; u1; u2], [u0; set_x u1 (pt 1); u2].
  refine (conj _ (conj _ (conj u_ok (conj _ (conj _ (conj _ (conj _ (conj _ _)))))))); try (cbn; lra).
  - discriminate.
  - intros s [<-|[<-|[<-|[]]]]; reflexivity.
  - assert (S1 : sample 3 false 5 [u0; u1; u2] = Some ([u0], u1, [u2])).
    { rewrite sample_S. unfold iterator_tslice, t0_tf, d_ub, d_lb, find_ts, ts_at, is_gate. cbn. reval. reflexivity. }
    assert (S2 : sample 3 false 10 [u0; u1; u2] = Some ([u1; u0], u2, [])).
    { rewrite sample_S. unfold iterator_tslice, t0_tf, d_ub, d_lb, find_ts, ts_at, is_gate. cbn. reval. reflexivity. }
    unfold assign_itv. rewrite S1. cbn [index length]. change (whole ([u0], u1, [u2])) with [u0; u1; u2]. rewrite S2.
    change (whole ([u1; u0], u2, [])) with [u0; u1; u2]. cbn [index length at_index]. cbn [u1 t_ub ts_t]. fold u1. rewrite (proj2 (opt_eqb_false (Some 7) (Some 5))) by (intros H; injection H as H; lra).
    cbn [length assign_loop at_index].
    assert (S3 : slice_set (pt 1) ([u0], u1, [u2]) = ([u0], set_x u1 (pt 1), [u2])).
    { unfold slice_set, set_side, slice_is_empty, slice_gate, is_gate. cbn. reval. reflexivity. }
    rewrite S3. reflexivity.
  - exists (fun t => if Rltb 7 t then 0 else 1), 8. refine (conj _ (conj _ _)); [|lra|rewrite Rltb_t by lra; cbn; lra].
    intros s t [<-|[<-|[<-|[]]]] H; cbn in H; try (split; exact I). cbn. rewrite Rltb_f by lra. lra.
Qed.
(** after the end of the domain: x([5,12]) = 1 on a tube defined on [0,10] sets the values on [5,10] only. *)
Theorem C67_outside_refuted : exists y a b d d', wf y /\ y <> Emp /\ partition d /\ a < b /\ In a (t0_tf d) /\
  (forall s, List.In s d -> ts_x s = ALL) /\ assign_itv y a b d = Some d' /\ In b (t0_tf d') /\
  exists f t, traj_in f d' /\ a < t < b /\ ~ In (f t) y.
Proof.
  set (v := TS (Itv (Some 0) (Some 10)) ALL). set (v0 := TS (Itv (Some 0) (Some 5)) ALL). set (v1 := TS (Itv (Some 5) (Some 10)) ALL). set (v2 := TS (Itv (Some 10) (Some 12)) ALL).
  exists (pt 1), 5, 12, [v], [v0; set_x v1 (pt 1); v2].
  assert (Pv : partition [v]). { refine (conj _ (conj _ I)); [discriminate|]. intros s [<-|[]]. exists 0. cbn. lra. }
  refine (conj _ (conj _ (conj Pv (conj _ (conj _ (conj _ (conj _ (conj _ _)))))))); try (cbn; lra).
  - discriminate.
  - intros s [<-|[]]; reflexivity.
  - assert (S1 : sample 3 false 5 [v] = Some ([v0], v1, [])).
    { rewrite sample_S. unfold iterator_tslice, t0_tf, d_ub, d_lb, find_ts, ts_at, is_gate. cbn. reval. reflexivity. }
    assert (S2 : sample 3 false 12 [v0; v1] = Some ([v1; v0], v2, [])).
    { rewrite sample_S. unfold iterator_tslice, t0_tf, d_ub, d_lb, find_ts, ts_at, is_gate. cbn. reval. reflexivity. }
    unfold assign_itv. rewrite S1. cbn [index length]. change (whole ([v0], v1, [])) with [v0; v1]. rewrite S2.
    change (whole ([v1; v0], v2, [])) with [v0; v1; v2]. cbn [index length at_index]. change (t_ub v1) with (Some 10). rewrite (proj2 (opt_eqb_false (Some 10) (Some 5))) by (intros H; injection H as H; lra).
    cbn [length assign_loop at_index].
    assert (S3 : slice_set (pt 1) ([v0], v1, [v2]) = ([v0], set_x v1 (pt 1), [v2])).
    { unfold slice_set, set_side, slice_is_empty, slice_gate, is_gate. cbn. reval. reflexivity. }
    rewrite S3. reflexivity.
  - exists (fun t => if Rltb 10 t then 0 else 1), 11. refine (conj _ (conj _ _)); [|lra|rewrite Rltb_t by lra; cbn; lra].
    intros s t [<-|[<-|[<-|[]]]] H; cbn in H; try (split; exact I). cbn. rewrite Rltb_f by lra. lra.
Qed.
(** x.set(y, t): the trajectories take their value at t in y; those of x that do are kept. *)
Theorem C67_at : forall y t d, partition d -> exists d', tube_set_at y t d = Some d' /\ partition d' /\ bound d' t /\
  (forall f, traj_in f d' -> In (f t) y) /\ (forall f, traj_in f d -> In (f t) y -> traj_in f d').
Proof.
  intros y t d P. destruct (C49_sample d t true P) as (rl & s & r & E & P1 & _ & _ & B & I & G & F). cbv zeta in *. rewrite whole_eq in *.
  specialize (G eq_refl). pose proof P1 as (Q1 & Q2 & Q3). assert (Gt : good_times (rev rl ++ s :: r)) by (split; assumption).
  unfold tube_set_at. rewrite E. eexists. split; [reflexivity|].
  assert (X : forall f, times (whole (slice_set y (rl, s, r))) = times (rev rl ++ s :: r) /\ (traj_in f (whole (slice_set y (rl, s, r))) <-> traj_in f (rev rl ++ set_x s y :: r))).
  { intros f. pose proof (slice_set_traj f y rl s r Gt) as X. destruct (slice_set y (rl, s, r)) as [[rl' s'] r']. destruct X as (X1 & X2 & X3 & X4).
    change (whole (rl', s', r')) with (rev_append rl' (s' :: r')). rewrite rev_append_rev. split; [|exact X4]. rewrite !times_rev_app, X1. cbn. rewrite X2. unfold times in *. rewrite X3. reflexivity. }
  destruct (X (fun _ => 0)) as [T _].
  assert (Ns : exists t, In t (ts_t s)) by eauto. apply (gate_true s Ns) in G as (c & C1 & C2).
  refine (conj _ (conj _ (conj _ _))).
  - destruct (times_good _ _ (eq_sym T) Gt) as [A1 A2]. refine (conj _ (conj A1 A2)). intros Q. rewrite Q in T. apply (f_equal (@length _)) in T. unfold times in T. rewrite !map_length, app_length in T. cbn in T. lia.
  - destruct B as (q & Bq & X0). assert (Q4 : List.In (ts_t q) (times (whole (slice_set y (rl, s, r))))) by (rewrite T; apply List.in_map, Bq).
    apply in_map_iff in Q4 as (q0 & E0 & Q0). exists q0. split; [exact Q0|]. unfold t_lb, t_ub in *. rewrite E0. exact X0.
  - intros f Hf. apply (proj2 (X f)) in Hf. apply (Hf (set_x s y) t); [apply mid_in|exact I].
  - intros f Hf Hy. apply (proj2 (X f)). apply F in Hf. apply traj_perm in Hf as [Hl Hf]. apply traj_cons2 in Hf as [Hs Hr]. apply traj_perm. split; [exact Hl|]. apply traj_cons2. split; [|exact Hr].
    cbn [set_x ts_t ts_x]. intros u Hu. apply (in_ts s u Ns) in Hu. rewrite C1, C2 in Hu. apply (in_ts s t Ns) in I. rewrite C1, C2 in I. cbn in *. assert (u = t) by lra. subst u. exact Hy.
Qed.
Example C67_ex : exists d', assign_itv (pt 1) 2 6 [u0; u1; u2] = Some d' /\ partition d' /\ forall f, traj_in f d' -> f 3 = 1.
Proof.
  destruct (C67_partial (pt 1) 2 6 [u0; u1; u2]) as (d' & E & Pd & _ & _ & X); [cbn; lra|discriminate|exact u_ok|lra| | |].
  - unfold before_end, d_ub. cbn. lra.
  - intros s [<-|[<-|[<-|[]]]] _ v _; split; exact I.
  - exists d'. refine (conj E (conj Pd _)). intros f F. apply X in F as [_ F]. specialize (F 3 ltac:(lra)). cbn in F. lra.
Qed.
Print Assumptions C67_partial.
