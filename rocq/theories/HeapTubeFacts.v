(** * Facts about the memory of tubes *)
From Coq Require Import Reals Lra Bool List Arith Lia.
From Verif Require Import Itv Arith Tube TubeSpec TubeFacts HeapTube.
Import ListNotations.
Open Scope R_scope.

Lemma put_eq {A} (f : nat -> option A) a v : put f a v a = v.
Proof. unfold put. rewrite Nat.eqb_refl. reflexivity. Qed.
Lemma put_neq {A} (f : nat -> option A) a b v : b <> a -> put f a v b = f b.
Proof. intros H. unfold put. destruct (Nat.eqb b a) eqn:E; [apply Nat.eqb_eq in E; congruence|reflexivity]. Qed.

(** pointer to the previous slice *)
Definition prevp (l : list nat) (k : nat) : option nat := match k with O => None | S k' => nth_error l k' end.

(** The memory [h] holds the tube [x]: its slices are at the addresses [l] and its gates at the addresses [gs]; gate [k] is
    the output of slice [k-1] and the input of slice [k] *)
Record rep (h : heap) (l gs : list nat) (x : tube) : Prop := {
  rp_len : length l = length x;
  rp_glen : length gs = S (length x);
  rp_nd : NoDup l;
  rp_gnd : NoDup gs;
  rp_cell : forall k a s, nth_error l k = Some a -> nth_error x k = Some s ->
    hsl h a = Some (mkH (s_lb s) (s_ub s) (s_cod s) (prevp l k) (nth_error l (S k)) (nth_error gs k) (nth_error gs (S k)));
  rp_in : forall k s g, nth_error x k = Some s -> nth_error gs k = Some g -> hgt h g = Some (s_in s);
  rp_out : forall k s g, nth_error x k = Some s -> nth_error gs (S k) = Some g -> hgt h g = Some (s_out s) }.

(** what is not in [l] and [gs] is as before *)
Definition others (l gs : list nat) (h h' : heap) : Prop :=
  (forall b, ~ List.In b l -> hsl h' b = hsl h b) /\ (forall g, ~ List.In g gs -> hgt h' g = hgt h g).
(** no object beyond the first unused address *)
Definition hok (h : heap) : Prop := forall b, (hnxt h <= b)%nat -> hsl h b = None /\ hgt h b = None.

Lemma others_refl l gs h : others l gs h h. Proof. split; auto. Qed.
Lemma others_trans l gs h1 h2 h3 : others l gs h1 h2 -> others l gs h2 h3 -> others l gs h1 h3.
Proof. intros [A B] [C D]. split; intros; [rewrite C, A|rewrite D, B]; auto. Qed.

Lemma rep_frame h h' l gs x : rep h l gs x -> (forall a, List.In a l -> hsl h' a = hsl h a) -> (forall g, List.In g gs -> hgt h' g = hgt h g) -> rep h' l gs x.
Proof.
  intros [A B C D E F G] H1 H2. constructor; auto.
  - intros k a s Ea Es. rewrite H1 by (eapply nth_error_In; eauto). eauto.
  - intros k s g Es Eg. rewrite H2 by (eapply nth_error_In; eauto). eauto.
  - intros k s g Es Eg. rewrite H2 by (eapply nth_error_In; eauto). eauto.
Qed.
Lemma rep_others h h' l gs l' gs' x : rep h l gs x -> others l' gs' h h' -> (forall a, List.In a l -> ~ List.In a l') -> (forall g, List.In g gs -> ~ List.In g gs') -> rep h' l gs x.
Proof. intros H [A B] H1 H2. apply (rep_frame h); auto. Qed.

Lemma rep_addr h l gs x k s : rep h l gs x -> nth_error x k = Some s -> exists a gi go, nth_error l k = Some a /\ nth_error gs k = Some gi /\ nth_error gs (S k) = Some go.
Proof.
  intros R E. assert (L : (k < length x)%nat) by (apply nth_error_Some; congruence).
  destruct (nth_error l k) eqn:E1; [|apply nth_error_None in E1; rewrite (rp_len _ _ _ _ R) in E1; lia].
  destruct (nth_error gs k) eqn:E2; [|apply nth_error_None in E2; rewrite (rp_glen _ _ _ _ R) in E2; lia].
  destruct (nth_error gs (S k)) eqn:E3; [|apply nth_error_None in E3; rewrite (rp_glen _ _ _ _ R) in E3; lia]. eauto 6.
Qed.
Lemma rep_slice h l gs x k a : rep h l gs x -> nth_error l k = Some a -> exists s, nth_error x k = Some s.
Proof.
  intros R E. assert (L : (k < length l)%nat) by (apply nth_error_Some; congruence). rewrite (rp_len _ _ _ _ R) in L.
  destruct (nth_error x k) eqn:E1; eauto. apply nth_error_None in E1. lia.
Qed.
Lemma nodup_nth (l : list nat) i j a : NoDup l -> nth_error l i = Some a -> nth_error l j = Some a -> i = j.
Proof.
  intros N Ei Ej. apply (proj1 (NoDup_nth_error l) N); [apply nth_error_Some; congruence|congruence].
Qed.
Lemma rep_gate h l gs x k g : rep h l gs x -> x <> [] -> nth_error gs k = Some g -> exists v, hgt h g = Some v.
Proof.
  intros R N E. assert (L : (k < length gs)%nat) by (apply nth_error_Some; congruence). rewrite (rp_glen _ _ _ _ R) in L.
  destruct (nth_error x k) as [s|] eqn:Es; [exists (s_in s); eapply rp_in; eauto|]. apply nth_error_None in Es.
  destruct k as [|k]. { destruct x; [congruence|cbn in Es; lia]. }
  destruct (nth_error x k) as [s|] eqn:Es'; [exists (s_out s); eapply rp_out; eauto|]. apply nth_error_None in Es'. lia.
Qed.

(** ** Values of the list operations *)
Lemma put_gate_nth k v x j s' : nth_error (put_gate k v x) j = Some s' -> exists s, nth_error x j = Some s /\
  s' = mkS (s_lb s) (s_ub s) (s_cod s) (if Nat.eqb j k then v else s_in s) (if Nat.eqb (S j) k then v else s_out s).
Proof.
  unfold put_gate. destruct k as [|k].
  - rewrite nth_error_upd. destruct (nth_error x j) as [s|] eqn:E; [|destruct (Nat.eqb j 0); discriminate].
    intros H. exists s. split; auto. destruct (Nat.eqb j 0) eqn:Ej; cbn in H; injection H as <-; cbn; auto; destruct s; reflexivity.
  - rewrite !nth_error_upd. change (Nat.eqb (S j) (S k)) with (Nat.eqb j k).
    destruct (nth_error x j) as [s|] eqn:E; [|destruct (Nat.eqb j (S k)), (Nat.eqb j k); discriminate].
    intros H. exists s. split; auto. destruct (Nat.eqb j (S k)) eqn:E1, (Nat.eqb j k) eqn:E2; cbn in H; injection H as <-; destruct s; reflexivity.
Qed.
Lemma put_gate_len k v x : length (put_gate k v x) = length x.
Proof. unfold put_gate. destruct k; rewrite !upd_length; auto. Qed.

(** ** Writes *)
Lemma wrg_spec h l gs x k g v : rep h l gs x -> x <> [] -> nth_error gs k = Some g ->
  exists h', wrg h (Some g) v = Done h' /\ rep h' l gs (put_gate k v x) /\ others l gs h h' /\ hnxt h' = hnxt h.
Proof.
  intros R N E. destruct (rep_gate h l gs x k g R N E) as (v0 & Hv). unfold wrg. rewrite Hv. eexists. split; [reflexivity|].
  split; [|split; [split; cbn; auto|reflexivity]].
  2:{ intros b Hb. apply put_neq. intros ->. apply Hb. eapply nth_error_In; eauto. }
  constructor; cbn [hsl hgt]; try apply R.
  - rewrite put_gate_len. apply R.
  - rewrite put_gate_len. apply R.
  - intros j a s' Ea Es. destruct (put_gate_nth _ _ _ _ _ Es) as (s & Es0 & ->). cbn. eapply rp_cell; eauto.
  - intros j s' g' Es Eg. destruct (put_gate_nth _ _ _ _ _ Es) as (s & Es0 & ->). cbn.
    destruct (Nat.eqb j k) eqn:Ejk.
    + apply Nat.eqb_eq in Ejk. subst j. rewrite E in Eg. injection Eg as <-. apply put_eq.
    + apply Nat.eqb_neq in Ejk. rewrite put_neq; [eapply rp_in; eauto|]. intros ->. apply Ejk. eapply nodup_nth; eauto. apply R.
  - intros j s' g' Es Eg. destruct (put_gate_nth _ _ _ _ _ Es) as (s & Es0 & ->). cbn [s_out].
    destruct (Nat.eqb (S j) k) eqn:Ejk.
    + apply Nat.eqb_eq in Ejk. subst k. rewrite E in Eg. injection Eg as <-. apply put_eq.
    + apply Nat.eqb_neq in Ejk. rewrite put_neq; [eapply rp_out; eauto|]. intros ->. apply Ejk. eapply nodup_nth; eauto. apply R.
Qed.
Lemma wr_spec h l gs x k a f fl : rep h l gs x -> nth_error l k = Some a ->
  (forall s p q gi go, f (mkH (s_lb s) (s_ub s) (s_cod s) p q gi go) = mkH (s_lb (fl s)) (s_ub (fl s)) (s_cod (fl s)) p q gi go /\
    s_in (fl s) = s_in s /\ s_out (fl s) = s_out s) ->
  exists h', wr h a f = Done h' /\ rep h' l gs (upd k fl x) /\ others l gs h h' /\ hnxt h' = hnxt h.
Proof.
  intros R E Hf. destruct (rep_slice _ _ _ _ _ _ R E) as (s & Es). unfold wr. rewrite (rp_cell _ _ _ _ R _ _ _ E Es).
  eexists. split; [reflexivity|]. split; [|split; [split; cbn; auto|reflexivity]].
  2:{ intros b Hb. apply put_neq. intros ->. apply Hb. eapply nth_error_In; eauto. }
  constructor; cbn [hsl hgt]; try apply R; rewrite ?upd_length; try apply R.
  - intros j b s' Eb Es'. rewrite nth_error_upd in Es'. destruct (nth_error x j) as [s0|] eqn:E0; [|destruct (Nat.eqb j k); discriminate].
    destruct (Nat.eqb j k) eqn:Ejk.
    + apply Nat.eqb_eq in Ejk. subst j. rewrite E in Eb. injection Eb as <-. cbn in Es'. injection Es' as <-. rewrite put_eq.
      rewrite Es in E0. injection E0 as <-. f_equal. apply Hf.
    + injection Es' as <-. apply Nat.eqb_neq in Ejk. rewrite put_neq; [eapply rp_cell; eauto|]. intros ->. apply Ejk. eapply nodup_nth; eauto. apply R.
  - intros j s' g Es' Eg. rewrite nth_error_upd in Es'. destruct (nth_error x j) as [s0|] eqn:E0; [|destruct (Nat.eqb j k); discriminate].
    rewrite (rp_in _ _ _ _ R j s0 g E0 Eg). destruct (Nat.eqb j k); cbn in Es'; injection Es' as <-; auto. destruct (Hf s0 None None None None) as (_ & -> & _). auto.
  - intros j s' g Es' Eg. rewrite nth_error_upd in Es'. destruct (nth_error x j) as [s0|] eqn:E0; [|destruct (Nat.eqb j k); discriminate].
    rewrite (rp_out _ _ _ _ R j s0 g E0 Eg). destruct (Nat.eqb j k); cbn in Es'; injection Es' as <-; auto. destruct (Hf s0 None None None None) as (_ & _ & ->). auto.
Qed.
Lemma rd_spec h l gs x k a s : rep h l gs x -> nth_error l k = Some a -> nth_error x k = Some s ->
  rd h a = Done (mkH (s_lb s) (s_ub s) (s_cod s) (prevp l k) (nth_error l (S k)) (nth_error gs k) (nth_error gs (S k))).
Proof. intros R E Es. unfold rd. rewrite (rp_cell _ _ _ _ R _ _ _ E Es). reflexivity. Qed.
Lemma cod_prev h l gs x k : rep h l gs x -> (k <= length x)%nat -> cod_of h (prevp l k) = Done (prev_cod x k).
Proof.
  intros R L. destruct k as [|k]; [reflexivity|]. cbn. unfold cod_at.
  destruct (nth_error x k) as [s|] eqn:Es; [|apply nth_error_None in Es; lia]. destruct (rep_addr _ _ _ _ _ _ R Es) as (a & _ & _ & Ea & _).
  rewrite Ea. cbn. rewrite (rd_spec _ _ _ _ _ _ _ R Ea Es). reflexivity.
Qed.
Lemma cod_next h l gs x k : rep h l gs x -> cod_of h (nth_error l k) = Done (cod_at x k).
Proof.
  intros R. unfold cod_at. destruct (nth_error x k) as [s|] eqn:Es.
  - destruct (rep_addr _ _ _ _ _ _ R Es) as (a & _ & _ & Ea & _). rewrite Ea. cbn. rewrite (rd_spec _ _ _ _ _ _ _ R Ea Es). reflexivity.
  - apply nth_error_None in Es. rewrite <- (rp_len _ _ _ _ R) in Es. apply nth_error_None in Es. rewrite Es. reflexivity.
Qed.

(** the operation on the memory does what the operation on the list does *)
Definition does (h : heap) (l gs : list nat) (o : out heap) (y : tube) : Prop :=
  exists h', o = Done h' /\ rep h' l gs y /\ others l gs h h' /\ hnxt h' = hnxt h.

Lemma nonempty_at {A} (x : list A) k s : nth_error x k = Some s -> x <> [].
Proof. intros E ->. destruct k; discriminate. Qed.

Lemma set_input_gate_does h l gs x k a g c : rep h l gs x -> nth_error l k = Some a -> does h l gs (hset_input_gate h a g c) (set_input_gate k g c x).
Proof.
  intros R E. destruct (rep_slice _ _ _ _ _ _ R E) as (s & Es). destruct (rep_addr _ _ _ _ _ _ R Es) as (a' & gi & go & E1 & E2 & E3).
  assert (N := nonempty_at _ _ _ Es). assert (L : (k < length x)%nat) by (apply nth_error_Some; congruence).
  unfold hset_input_gate, set_input_gate. rewrite (rd_spec _ _ _ _ _ _ _ R E Es). cbn [obind h_prev h_gin h_cod]. destruct c.
  - rewrite (cod_prev _ _ _ _ _ R) by lia. cbn [obind]. rewrite E2. assert (cod_at x k = Some (s_cod s)) as -> by (unfold cod_at; rewrite Es; reflexivity). cbn [inter_opt].
    apply (wrg_spec h l gs x k gi); auto.
  - rewrite E2. apply (wrg_spec h l gs x k gi); auto.
Qed.
Lemma set_output_gate_does h l gs x k a g c : rep h l gs x -> nth_error l k = Some a -> does h l gs (hset_output_gate h a g c) (set_output_gate k g c x).
Proof.
  intros R E. destruct (rep_slice _ _ _ _ _ _ R E) as (s & Es). destruct (rep_addr _ _ _ _ _ _ R Es) as (a' & gi & go & E1 & E2 & E3).
  assert (N := nonempty_at _ _ _ Es).
  unfold hset_output_gate, set_output_gate. rewrite (rd_spec _ _ _ _ _ _ _ R E Es). cbn [obind h_next h_gout h_cod]. destruct c.
  - rewrite (cod_next _ _ _ _ _ R). cbn [obind]. rewrite E3. assert (cod_at x k = Some (s_cod s)) as -> by (unfold cod_at; rewrite Es; reflexivity). cbn [inter_opt].
    apply (wrg_spec h l gs x (S k) go); auto.
  - rewrite E3. apply (wrg_spec h l gs x (S k) go); auto.
Qed.
Lemma does_bind h l gs o y f z : does h l gs o y -> (forall h', rep h' l gs y -> does h' l gs (f h') z) -> does h l gs (obind o f) z.
Proof.
  intros (h1 & -> & R1 & O1 & N1) H. destruct (H h1 R1) as (h2 & E2 & R2 & O2 & N2). exists h2. cbn. split; auto. split; auto.
  split; [eapply others_trans; eauto|congruence].
Qed.
Lemma wr_cod_does h l gs x k a y : rep h l gs x -> nth_error l k = Some a -> does h l gs (wr h a (w_cod y)) (upd k (set_cod y) x).
Proof. intros R E. apply (wr_spec h l gs x k a); auto; intros s p q gi go; repeat split; reflexivity. Qed.
Lemma wr_dom_does h l gs x k a u v : rep h l gs x -> nth_error l k = Some a -> does h l gs (wr h a (w_dom u v)) (upd k (set_dom u v) x).
Proof. intros R E. apply (wr_spec h l gs x k a); auto; intros s p q gi go; repeat split; reflexivity. Qed.
Lemma rdg_in h l gs x k s : rep h l gs x -> nth_error x k = Some s -> rdg h (nth_error gs k) = Done (s_in s).
Proof. intros R E. destruct (rep_addr _ _ _ _ _ _ R E) as (a & gi & go & _ & E2 & _). rewrite E2. cbn. rewrite (rp_in _ _ _ _ R k s gi); auto. Qed.
Lemma rdg_out h l gs x k s : rep h l gs x -> nth_error x k = Some s -> rdg h (nth_error gs (S k)) = Done (s_out s).
Proof. intros R E. destruct (rep_addr _ _ _ _ _ _ R E) as (a & gi & go & _ & _ & E3). rewrite E3. cbn [rdg]. rewrite (rp_out _ _ _ _ R k s go); auto. Qed.
Lemma wrg_does h l gs x k v : rep h l gs x -> x <> [] -> (k <= length x)%nat -> does h l gs (wrg h (nth_error gs k) v) (put_gate k v x).
Proof.
  intros R N L. destruct (nth_error gs k) as [g|] eqn:E; [|apply nth_error_None in E; rewrite (rp_glen _ _ _ _ R) in E; lia].
  apply (wrg_spec h l gs x k g); auto.
Qed.
Lemma upd_nth_same {A} k (f : A -> A) l s : nth_error l k = Some s -> nth_error (upd k f l) k = Some (f s).
Proof. intros E. rewrite nth_error_upd, E, Nat.eqb_refl. reflexivity. Qed.
Lemma put_gate_at k v x s : nth_error x k = Some s -> nth_error (put_gate k v x) k = Some (set_in v s).
Proof.
  intros E. destruct (nth_error (put_gate k v x) k) as [s'|] eqn:E'.
  - destruct (put_gate_nth _ _ _ _ _ E') as (s0 & E0 & ->). rewrite E in E0. injection E0 as <-. rewrite Nat.eqb_refl.
    replace (Nat.eqb (S k) k) with false by (symmetry; apply Nat.eqb_neq; lia). reflexivity.
  - apply nth_error_None in E'. rewrite put_gate_len in E'. assert (k < length x)%nat by (apply nth_error_Some; congruence). lia.
Qed.

Lemma set_envelope_does h l gs x k a y c : rep h l gs x -> nth_error l k = Some a -> does h l gs (hset_envelope h a y c) (set_envelope k y c x).
Proof.
  intros R E. destruct (rep_slice _ _ _ _ _ _ R E) as (s & Es). assert (L : (k < length x)%nat) by (apply nth_error_Some; congruence).
  unfold hset_envelope, set_envelope. rewrite Es. apply (does_bind h l gs _ (upd k (set_cod y) x)); [apply wr_cod_does; auto|].
  intros h1 R1. assert (Es1 := upd_nth_same k (set_cod y) x s Es). destruct c; [|exists h1; auto using others_refl].
  rewrite (rd_spec _ _ _ _ _ _ _ R1 E Es1). cbn [obind h_gin h_gout]. rewrite (rdg_in _ _ _ _ _ _ R1 Es1). cbn [obind s_in set_cod].
  apply (does_bind h1 l gs _ (put_gate k (inter (s_in s) y) (upd k (set_cod y) x))).
  { apply wrg_does; auto; [eapply nonempty_at; eauto|rewrite upd_length; lia]. }
  intros h2 R2. assert (Es2 := put_gate_at k (inter (s_in s) y) _ _ Es1). rewrite (rdg_out _ _ _ _ _ _ R2 Es2). cbn [obind s_out set_cod set_in].
  apply wrg_does; auto; [eapply nonempty_at; eauto|rewrite put_gate_len, upd_length; lia].
Qed.
Lemma slice_set_does h l gs x k a y : rep h l gs x -> nth_error l k = Some a -> does h l gs (hslice_set h a y) (slice_set k y x).
Proof.
  intros R E. destruct (rep_slice _ _ _ _ _ _ R E) as (s & Es). assert (L : (k < length x)%nat) by (apply nth_error_Some; congruence).
  unfold hslice_set, slice_set. apply (does_bind h l gs _ (upd k (set_cod y) x)); [apply wr_cod_does; auto|].
  intros h1 R1. assert (Es1 := upd_nth_same k (set_cod y) x s Es).
  rewrite (rd_spec _ _ _ _ _ _ _ R1 E Es1). cbn [obind h_gin h_gout h_prev h_next]. rewrite (cod_prev _ _ _ _ _ R1) by (rewrite upd_length; lia). cbn [obind].
  cbv zeta. eapply does_bind. { apply wrg_does; eauto; [eapply nonempty_at; eauto|rewrite upd_length; lia]. }
  intros h2 R2. rewrite (cod_next _ _ _ _ _ R2). cbn [obind]. apply wrg_does; auto; [|rewrite put_gate_len, upd_length; lia].
  eapply nonempty_at. apply put_gate_at. eauto.
Qed.

(** ** Segments of linked slices *)
Definition nxt (l : list nat) (q : option nat) : option nat := match l with [] => q | a :: _ => Some a end.
Definition nxtg (gs : list nat) (q : nat) : nat := match gs with [] => q | g :: _ => g end.
(** slices [l] with input gates [gs]; [p] before the first one, [q] after the last one, [gq] output gate of the last one *)
Fixpoint seg (h : heap) (p : option nat) (l gs : list nat) (x : tube) (q : option nat) (gq : nat) : Prop :=
  match l, gs, x with
  | [], [], [] => True
  | a :: l', g :: gs', s :: x' =>
      hsl h a = Some (mkH (s_lb s) (s_ub s) (s_cod s) p (nxt l' q) (Some g) (Some (nxtg gs' gq))) /\
      hgt h g = Some (s_in s) /\ hgt h (nxtg gs' gq) = Some (s_out s) /\ seg h (Some a) l' gs' x' q gq
  | _, _, _ => False
  end.
Definition lastp (p : option nat) (l : list nat) : option nat := match rev l with [] => p | a :: _ => Some a end.

Lemma lastp_cons p a l : lastp p (a :: l) = lastp (Some a) l.
Proof. unfold lastp. cbn. destruct (rev l) eqn:E; reflexivity. Qed.
Lemma lastp_snoc p l a : lastp p (l ++ [a]) = Some a.
Proof. unfold lastp. rewrite rev_app_distr. reflexivity. Qed.
Lemma seg_len h l : forall p gs x q gq, seg h p l gs x q gq -> length gs = length l /\ length x = length l.
Proof. induction l as [|a l IH]; intros p [|g gs] [|s x] q gq H; cbn in *; auto; try tauto. destruct (IH _ _ _ _ _ (proj2 (proj2 (proj2 H)))). lia. Qed.
Lemma nxt_app l1 l2 q : nxt (l1 ++ l2) q = nxt l1 (nxt l2 q). Proof. destruct l1; reflexivity. Qed.
Lemma nxtg_app l1 l2 q : nxtg (l1 ++ l2) q = nxtg l1 (nxtg l2 q). Proof. destruct l1; reflexivity. Qed.
Lemma seg_app h l2 g2 x2 q gq l1 : forall p g1 x1, length g1 = length l1 -> length x1 = length l1 ->
  (seg h p (l1 ++ l2) (g1 ++ g2) (x1 ++ x2) q gq <-> seg h p l1 g1 x1 (nxt l2 q) (nxtg g2 gq) /\ seg h (lastp p l1) l2 g2 x2 q gq).
Proof.
  induction l1 as [|a l1 IH]; intros p [|g g1] [|s x1] L1 L2; cbn in L1, L2; try discriminate; cbn [app seg].
  - unfold lastp. cbn. tauto.
  - rewrite nxt_app, nxtg_app, lastp_cons, IH by lia. tauto.
Qed.
Lemma seg_frame h h' l : forall p gs x q gq, seg h p l gs x q gq -> (forall a, List.In a l -> hsl h' a = hsl h a) -> (forall g, List.In g gs -> hgt h' g = hgt h g) ->
  (l <> [] -> hgt h' gq = hgt h gq) -> seg h' p l gs x q gq.
Proof.
  induction l as [|a l IH]; intros p [|g gs] [|s x] q gq H H1 H2 H3; cbn in H |- *; auto; try tauto. destruct H as (A & B & C & D).
  rewrite H1 by (left; auto). rewrite H2 by (left; auto). split; [auto|]. split; [auto|]. split.
  - destruct gs as [|g' gs]; cbn in *; [rewrite H3 by discriminate; auto|rewrite H2 by auto; auto].
  - apply IH; auto. { intros; apply H1; right; auto. } { intros; apply H2; right; auto. } intros N. apply H3. discriminate.
Qed.

Lemma seg_pointwise h q gq : forall x l p gs, seg h p l gs x q gq ->
  (forall k a s, nth_error l k = Some a -> nth_error x k = Some s ->
    hsl h a = Some (mkH (s_lb s) (s_ub s) (s_cod s) (match k with O => p | S k' => nth_error l k' end) (match nth_error l (S k) with Some b => Some b | None => q end)
                    (nth_error (gs ++ [gq]) k) (nth_error (gs ++ [gq]) (S k)))) /\
  (forall k s g, nth_error x k = Some s -> nth_error (gs ++ [gq]) k = Some g -> hgt h g = Some (s_in s)) /\
  (forall k s g, nth_error x k = Some s -> nth_error (gs ++ [gq]) (S k) = Some g -> hgt h g = Some (s_out s)).
Proof.
  induction x as [|s x IH]; intros [|a l] p [|g gs] H; cbn in H; try tauto.
  - split; [|split]; intros k; destruct k; discriminate.
  - destruct H as (A & B & C & D). destruct (IH _ _ _ D) as (I1 & I2 & I3). split; [|split].
    + intros [|k] b s' Eb Es; [|specialize (I1 k b s' Eb Es); cbn [nth_error app] in *; rewrite I1; destruct k; auto].
      cbn in Eb, Es. injection Eb as <-. injection Es as <-. rewrite A. cbn. destruct l, gs; reflexivity.
    + intros [|k] s' g' Es Eg; [|apply (I2 k); auto]. cbn in *. injection Es as <-. injection Eg as <-. auto.
    + intros [|k] s' g' Es Eg; [|apply (I3 k); auto]. cbn in *. injection Es as <-. destruct gs as [|g1 gs]; cbn in *; injection Eg as <-; auto.
Qed.
Lemma pointwise_seg h q gq : forall x l p gs, length l = length x -> length gs = length x ->
  (forall k a s, nth_error l k = Some a -> nth_error x k = Some s ->
    hsl h a = Some (mkH (s_lb s) (s_ub s) (s_cod s) (match k with O => p | S k' => nth_error l k' end) (match nth_error l (S k) with Some b => Some b | None => q end)
                    (nth_error (gs ++ [gq]) k) (nth_error (gs ++ [gq]) (S k)))) ->
  (forall k s g, nth_error x k = Some s -> nth_error (gs ++ [gq]) k = Some g -> hgt h g = Some (s_in s)) ->
  (forall k s g, nth_error x k = Some s -> nth_error (gs ++ [gq]) (S k) = Some g -> hgt h g = Some (s_out s)) ->
  seg h p l gs x q gq.
Proof.
  induction x as [|s x IH]; intros [|a l] p [|g gs] L1 L2 H1 H2 H3; cbn in L1, L2; try discriminate; cbn [seg]; auto.
  split; [|split; [|split]].
  - rewrite (H1 O a s eq_refl eq_refl). cbn. destruct l, gs; reflexivity.
  - apply (H2 O); auto.
  - apply (H3 O); auto. cbn. destruct gs; reflexivity.
  - apply IH; [lia|lia| | |].
    + intros k b s' Eb Es. rewrite (H1 (S k) b s' Eb Es). destruct k; reflexivity.
    + intros k s' g' Es Eg. apply (H2 (S k)); auto.
    + intros k s' g' Es Eg. apply (H3 (S k)); auto.
Qed.
Lemma rep_seg h l gs x : rep h l gs x -> exists gs' gq, gs = gs' ++ [gq] /\ seg h None l gs' x None gq.
Proof.
  intros R. destruct (@exists_last _ gs) as (gs' & gq & ->). { intros ->. assert (L := rp_glen _ _ _ _ R). discriminate. }
  exists gs', gq. split; auto. assert (L := rp_glen _ _ _ _ R). rewrite app_length in L. cbn in L. apply pointwise_seg; try apply R; try lia.
  intros k a s Ea Es. rewrite (rp_cell _ _ _ _ R _ _ _ Ea Es). cbn [prevp]. f_equal. f_equal. destruct (nth_error l (S k)); reflexivity.
Qed.
Lemma seg_rep h l gs x gq : seg h None l gs x None gq -> NoDup l -> NoDup (gs ++ [gq]) -> rep h l (gs ++ [gq]) x.
Proof.
  intros S N1 N2. destruct (seg_len _ _ _ _ _ _ _ S) as [L1 L2]. destruct (seg_pointwise _ _ _ _ _ _ _ S) as (A & B & C).
  constructor; auto. { rewrite app_length. cbn. lia. }
  intros k a s Ea Es. rewrite (A _ _ _ Ea Es). cbn [prevp]. f_equal. f_equal. destruct (nth_error l (Datatypes.S k)); reflexivity.
Qed.

(** ** Destruction *)
(** all the objects of [l] and [gs] are freed, nothing else is touched *)
Definition gone (l gs : list nat) (h h' : heap) : Prop :=
  (forall a, List.In a l -> hsl h' a = None) /\ (forall g, List.In g gs -> hgt h' g = None) /\ others l gs h h' /\ hnxt h' = hnxt h.

Lemma destroy_seg gq : forall x l gs h fuel, x <> [] -> seg h None l gs x None gq -> NoDup l -> NoDup (gs ++ [gq]) -> (length x <= fuel)%nat ->
  exists h', destroy fuel h (hd_error l) = Done h' /\ gone l (gs ++ [gq]) h h'.
Proof.
  induction x as [|s x IH]; intros [|a l] [|g gs] h fuel NE H N1 N2 F; cbn in H; try tauto. clear NE.
  destruct fuel as [|fuel]; [cbn in F; lia|]. destruct H as (A & B & C & D). inversion N1 as [|? ? M1 N1']; subst. cbn in N2. inversion N2 as [|? ? M2 N2']; subst.
  cbn [hd_error destroy]. unfold rd at 1. rewrite A. cbn [obind]. unfold del_slice, rd. rewrite A. cbn [obind h_prev h_next h_gin h_gout].
  destruct l as [|b l]; cbn [nxt obind].
  - destruct gs as [|g2 gs]; [|destruct x; cbn in D; tauto]. destruct x as [|s2 x]; [|cbn in D; tauto]. cbn [nxtg] in C.
    unfold freeg. rewrite B. cbn [obind hgt hsl hnxt nxtg]. assert (gq <> g) by (intros ->; apply M2; cbn; auto). rewrite put_neq by auto. rewrite C.
    cbn [obind]. destruct fuel; cbn [destroy]; (eexists; split; [reflexivity|]); (split; [|split; [|split; [split|reflexivity]]]); cbn [hsl hgt]; cbn.
    all: try (intros ? [<-|[]]; apply put_eq). all: try (intros ? [<-|[<-|[]]]; [rewrite put_neq by auto|]; apply put_eq).
    all: try (intros b Hb; rewrite !put_neq by tauto; auto); intros b Hb; rewrite !put_neq by (intros ->; tauto); auto.
  - destruct x as [|s2 x]; [destruct gs; cbn in D; tauto|]. destruct gs as [|g2 gs]; [cbn in D; tauto|].
    assert (a <> b) by (intros ->; apply M1; cbn; auto).
    assert (D' := D). destruct D' as (D1 & D2 & D3 & D4). unfold wr. rewrite D1. cbn [obind hgt hsl hnxt]. unfold freeg. cbn [hgt]. rewrite B. cbn [obind hgt hsl hnxt].
    set (h1 := mkHeap _ _ _).
    assert (E1 : seg h1 None (b :: l) (g2 :: gs) (s2 :: x) None gq).
    { split; [|split; [|split]]; subst h1; cbn [hsl hgt].
      - rewrite put_neq by auto. rewrite put_eq. reflexivity.
      - rewrite put_neq; auto. intros ->. apply M2. cbn; auto.
      - rewrite put_neq; auto. intros <-. apply M2. destruct gs; cbn; auto.
      - apply (seg_frame h); auto; cbn [hsl hgt].
        + intros c Hc. rewrite !put_neq; auto; intros ->. { inversion N1'; tauto. } apply M1. cbn; auto.
        + intros c Hc. rewrite !put_neq; auto. intros ->. apply M2. cbn. right. apply in_or_app; auto.
        + intros _. rewrite put_neq; auto. intros ->. apply M2. cbn. right. apply in_or_app; cbn; auto. }
    destruct (IH (b :: l) (g2 :: gs) h1 fuel) as (h' & Eh & G1 & G2 & (G3 & G4) & G5); auto. { discriminate. } { cbn in F |- *. lia. }
    cbn [hd_error] in Eh. rewrite Eh. exists h'. split; auto. split; [|split; [|split; [split|]]].
    + intros c [<-|Hc]; [|apply G1; auto]. rewrite G3 by auto. subst h1. cbn. apply put_eq.
    + intros c [<-|Hc]; [|apply G2; auto]. rewrite G4 by auto. subst h1. cbn. apply put_eq.
    + intros c Hc. rewrite G3 by (intros K; apply Hc; right; auto). subst h1. cbn. rewrite !put_neq; auto; intros ->; apply Hc; cbn; auto.
    + intros c Hc. rewrite G4 by (intros K; apply Hc; right; auto). subst h1. cbn. rewrite put_neq; auto; intros ->; apply Hc; cbn; auto.
    + rewrite G5. reflexivity.
Qed.
Lemma destroy_spec h l gs x fuel : rep h l gs x -> x <> [] -> (length x <= fuel)%nat -> exists h', destroy fuel h (hd_error l) = Done h' /\ gone l gs h h'.
Proof.
  intros R N F. assert (N1 := rp_nd _ _ _ _ R). assert (N2 := rp_gnd _ _ _ _ R). destruct (rep_seg _ _ _ _ R) as (gs' & gq & -> & S). apply (destroy_seg gq x); auto.
Qed.

(** ** Copy *)
Ltac hp := repeat (first [rewrite put_eq | rewrite put_neq by (solve [auto | lia | congruence])]; cbn [obind hsl hgt hnxt h_lb h_ub h_cod h_prev h_next h_gin h_gout w_prev w_next w_gin w_gout w_cod w_dom fst snd]).

Lemma hok_lt h a s : hok h -> hsl h a = Some s -> (a < hnxt h)%nat.
Proof. intros H E. destruct (Nat.lt_ge_cases a (hnxt h)) as [L|L]; auto. destruct (H a L). congruence. Qed.
Lemma hok_ltg h a s : hok h -> hgt h a = Some s -> (a < hnxt h)%nat.
Proof. intros H E. destruct (Nat.lt_ge_cases a (hnxt h)) as [L|L]; auto. destruct (H a L). congruence. Qed.

Lemma append_step h a b sa sb gi go gq : hok h -> hsl h a = Some sa -> rdg h (h_gin sa) = Done gi -> rdg h (h_gout sa) = Done go ->
  hsl h b = Some sb -> h_gout sb = Some gq -> a <> b ->
  exists h', (nh <- copy_slice h a ;; h <- wr (snd nh) b (w_next (Some (fst nh))) ;; s <- rd h (fst nh) ;; h <- freeg h (h_gin s) ;;
              h <- wr h (fst nh) (w_gin None) ;; chain_slices h (Some b) (Some (fst nh))) = Done h' /\
    hsl h' b = Some (w_next (Some (hnxt h)) sb) /\
    hsl h' (hnxt h) = Some (mkH (h_lb sa) (h_ub sa) (h_cod sa) (Some b) None (Some gq) (Some (S (hnxt h)))) /\
    (forall c, c <> b -> c <> hnxt h -> hsl h' c = hsl h c) /\
    hgt h' (S (hnxt h)) = Some go /\ (forall g, g <> S (hnxt h) -> hgt h' g = hgt h g) /\ hnxt h' = S (S (hnxt h)).
Proof.
  intros K Ea Ei Eo Eb Eg N. assert (La := hok_lt _ _ _ K Ea). assert (Lb := hok_lt _ _ _ K Eb).
  unfold copy_slice. unfold rd at 1. rewrite Ea. cbn [obind]. rewrite Ei. cbn [obind]. rewrite Eo. cbn [obind]. unfold new_slice. cbn [fst snd].
  unfold wr at 1. cbn [hsl]. hp. rewrite Eb. cbn [obind]. unfold rd at 1. cbn [hsl]. hp. cbn [obind h_gin]. unfold freeg. cbn [hgt]. hp. cbn [obind].
  unfold wr at 1. cbn [hsl]. hp. cbn [obind]. unfold chain_slices. unfold wr at 1. cbn [hsl]. hp. cbn [obind]. unfold wr at 1. cbn [hsl]. hp. cbn [obind].
  unfold rd at 1. cbn [hsl]. hp. cbn [obind]. unfold rd at 1. cbn [hsl]. hp. cbn [obind h_gin w_prev w_gin w_next]. unfold wr. cbn [hsl]. hp.
  eexists. split; [reflexivity|]. cbn [hsl hgt hnxt]. split; [hp; reflexivity|]. split; [hp; cbn; rewrite Eg; reflexivity|].
  split; [intros c N1 N2; hp; auto|]. split; [hp; auto|]. split; [|reflexivity].
  intros g N1. destruct (Nat.eq_dec g (hnxt h)) as [->|N2]; [|hp; auto]. hp. symmetry. apply K. lia.
Qed.

Lemma NoDup_snoc {A} (l : list A) a : NoDup l -> ~ List.In a l -> NoDup (l ++ [a]).
Proof. intros N H. apply NoDup_rev in N. rewrite <- (rev_involutive (l ++ [a])). apply NoDup_rev. rewrite rev_app_distr. cbn. constructor; auto. rewrite <- in_rev. auto. Qed.
Lemma seg_in h a l : forall p gs x q gq, seg h p l gs x q gq -> List.In a l -> exists s, hsl h a = Some s.
Proof. induction l as [|b l IH]; intros p [|g gs] [|s x] q gq H K; cbn in H; try tauto. destruct K as [->|K]; [eexists; apply H|]. eapply IH; [apply H|auto]. Qed.
Lemma seg_ing h g l : forall p gs x q gq, seg h p l gs x q gq -> List.In g gs -> exists s, hgt h g = Some s.
Proof. induction l as [|b l IH]; intros p [|g' gs] [|s x] q gq H K; cbn in H; try tauto. destruct K as [->|K]; [eexists; apply H|]. eapply IH; [apply H|auto]. Qed.
Lemma seg_last h l : forall p gs x q gq s, seg h p (l ++ [s]) gs x q gq -> exists v, hgt h gq = Some v /\ option_map s_out (nth_error x (length l)) = Some v.
Proof.
  induction l as [|a l IH]; intros p [|g gs] [|s0 x] q gq s H; cbn in H; try tauto.
  - destruct H as (_ & _ & C & D). destruct gs as [|g' gs]; [|destruct x; tauto]. destruct x; [|tauto]. cbn in *. eauto.
  - destruct H as (_ & _ & _ & D). destruct (IH _ _ _ _ _ _ D) as (v & A & B). exists v. split; auto.
Qed.

Definition between (u v : nat) (l : list nat) : Prop := forall a, List.In a l -> (u <= a < v)%nat.

(** the source from its slice [a] on, the copy so far *)
Lemma copy_rest : forall xr fuel h h0 lr gr gq p lc gc xc b gqc first,
  seg h0 p lr gr xr None gq -> (forall a, List.In a lr -> (a < hnxt h0)%nat) -> (forall g, List.In g (gr ++ [gq]) -> (g < hnxt h0)%nat) ->
  hok h -> seg h None (lc ++ [b]) gc xc None gqc -> NoDup (lc ++ [b]) -> NoDup (gc ++ [gqc]) ->
  between (hnxt h0) (hnxt h) (lc ++ [b]) -> between (hnxt h0) (hnxt h) (gc ++ [gqc]) -> others (lc ++ [b]) (gc ++ [gqc]) h0 h ->
  (forall s r, xr = s :: r -> option_map s_out (nth_error xc (length lc)) = Some (s_in s)) ->
  (length xr <= fuel)%nat ->
  exists h' l2 g2, copy_loop fuel h (hd_error lr) (Some b) first = Done (first, h') /\ hok h' /\
    rep h' (lc ++ b :: l2) g2 (xc ++ xr) /\ between (hnxt h0) (hnxt h') (lc ++ b :: l2) /\ between (hnxt h0) (hnxt h') g2 /\
    others (lc ++ b :: l2) g2 h0 h'.
Proof.
  induction xr as [|s xr IH]; intros fuel h h0 lr gr gq p lc gc xc b gqc first Hs Bl Bg K Hc N1 N2 B1 B2 O Hj F.
  - destruct lr as [|a lr]; [|destruct gr; cbn in Hs; tauto]. exists h, [], (gc ++ [gqc]). rewrite app_nil_r.
    split; [destruct fuel; reflexivity|]. split; auto. split; [apply seg_rep; auto|]. auto.
  - destruct lr as [|a lr]; [destruct gr; cbn in Hs; tauto|]. destruct gr as [|g gr]; [cbn in Hs; tauto|]. destruct Hs as (S1 & S2 & S3 & S4).
    destruct fuel as [|fuel]; [cbn in F; lia|].
    assert (La : (a < hnxt h0)%nat) by (apply Bl; left; auto).
    assert (Hh0 : (hnxt h0 <= b < hnxt h)%nat) by (apply B1; apply in_or_app; cbn; auto).
    assert (Oa : forall c, (c < hnxt h0)%nat -> hsl h c = hsl h0 c) by (intros c Lc; apply O; intros I; apply B1 in I; lia).
    assert (Og : forall c, (c < hnxt h0)%nat -> hgt h c = hgt h0 c) by (intros c Lc; apply O; intros I; apply B2 in I; lia).
    assert (Lg : (g < hnxt h0)%nat) by (apply Bg; left; auto).
    assert (Lg2 : (nxtg gr gq < hnxt h0)%nat) by (apply Bg; right; destruct gr; cbn; auto).
    destruct (seg_len _ _ _ _ _ _ _ Hc) as [Lc1 Lc2]. rewrite app_length in Lc1, Lc2. cbn in Lc1, Lc2.
    destruct (@exists_last _ gc) as (gc0 & gb & Egc). { intros ->. cbn in Lc1. lia. }
    destruct (@exists_last _ xc) as (xc0 & sb & Exc). { intros ->. cbn in Lc2. lia. } subst gc xc. rewrite app_length in Lc1, Lc2. cbn in Lc1, Lc2.
    assert (Hc' := Hc). apply seg_app in Hc'; try lia. destruct Hc' as (C1 & C2). cbn [nxt nxtg] in C1. cbn [seg nxt nxtg] in C2. destruct C2 as (Cb & Cg & Cq & _).
    assert (P1 : rdg h (Some g) = Done (s_in s)) by (cbn; rewrite Og, S2 by auto; auto).
    assert (P2 : rdg h (Some (nxtg gr gq)) = Done (s_out s)) by (cbn; rewrite Og, S3 by auto; auto).
    assert (P3 : a <> b) by lia.
    destruct (append_step h a b _ _ (s_in s) (s_out s) gqc K (eq_trans (Oa a La) S1) P1 P2 Cb eq_refl P3) as (h1 & E1 & W1 & W2 & W3 & W4 & W5 & W6).
    cbn [h_lb h_ub h_cod w_next h_prev h_next h_gin h_gout] in W1, W2.
    assert (Hs_in : s_in s = s_out sb).
    { specialize (Hj s xr eq_refl). rewrite nth_error_app2 in Hj by lia. replace (length lc - length xc0)%nat with 0%nat in Hj by lia. cbn in Hj. congruence. }
    set (n := hnxt h) in *.
    assert (Kh1 : hok h1).
    { intros c Lc. rewrite W6 in Lc. rewrite W3 by lia. rewrite W5 by lia. apply K. fold n. lia. }
    assert (NI : forall c, List.In c lc -> c <> b).
    { intros c I ->. apply NoDup_remove_2 in N1. apply N1. rewrite app_nil_r. auto. }
    assert (NIq : forall c, List.In c (gc0 ++ [gb]) -> c <> gqc).
    { intros c I ->. apply NoDup_remove_2 in N2. apply N2. rewrite app_nil_r. auto. }
    assert (Seg1 : seg h1 None ((lc ++ [b]) ++ [n]) ((gc0 ++ [gb]) ++ [gqc]) ((xc0 ++ [sb]) ++ [s]) None (S n)).
    { apply seg_app; [rewrite !app_length; cbn; lia..|]. split.
      - cbn [nxt nxtg]. apply seg_app; [lia..|]. split; cbn [nxt nxtg].
        + apply (seg_frame h); auto.
          * intros c I. apply W3; auto. intros ->. assert (n < n)%nat; [|lia]. apply B1. apply in_or_app; auto.
          * intros c I. apply W5. intros ->. assert (S n < n)%nat; [|lia]. apply B2. apply in_or_app; left; apply in_or_app; auto.
          * intros _. apply W5. intros ->. assert (S n < n)%nat; [|lia]. apply B2. apply in_or_app; left; apply in_or_app; cbn; auto.
        + cbn [seg nxt nxtg]. rewrite W1. split; [reflexivity|]. rewrite !W5. { split; auto. }
          all: intros ->; assert (S n < n)%nat; try lia; apply B2; rewrite ?in_app_iff; cbn; auto.
      - rewrite lastp_snoc. cbn [seg nxt nxtg]. rewrite W2. split; [reflexivity|]. split; [|split; auto].
        rewrite W5. { rewrite Cq. congruence. } intros ->; assert (S n < n)%nat; try lia; apply B2; rewrite ?in_app_iff; cbn; auto. }
    destruct (IH fuel h1 h0 lr gr gq (Some a) (lc ++ [b]) ((gc0 ++ [gb]) ++ [gqc]) ((xc0 ++ [sb]) ++ [s]) n (S n) first) as (h' & l2 & g2 & E2 & I1 & I2 & I3 & I4 & I5); auto.
    + intros c I. apply Bl. right. auto.
    + intros c I. apply Bg. right. auto.
    + apply NoDup_snoc; auto. intros I. apply B1 in I. lia.
    + apply NoDup_snoc; auto. intros I. apply B2 in I. lia.
    + intros c I. rewrite W6. apply in_app_or in I. destruct I as [I|[<-|[]]]; [apply B1 in I; lia|lia].
    + intros c I. rewrite W6. apply in_app_or in I. destruct I as [I|[<-|[]]]; [apply B2 in I; lia|lia].
    + split.
      * intros c I. rewrite in_app_iff in I. cbn in I. rewrite W3; [apply O; tauto| |]; intros ->; apply I; rewrite ?in_app_iff; cbn; auto.
      * intros c I. rewrite in_app_iff in I. cbn in I. rewrite W5; [apply O; tauto|]. intros ->; apply I; auto.
    + intros s2 r ->. rewrite nth_error_app2 by (rewrite !app_length; cbn; lia). rewrite !app_length. cbn [length].
      replace (length lc + 1 - (length xc0 + 1))%nat with 0%nat by lia. cbn.
      destruct lr as [|a2 lr]; [destruct gr; cbn in S4; tauto|]. destruct gr as [|g2' gr]; [cbn in S4; tauto|]. cbn in S3, S4. destruct S4 as (_ & S5 & _). congruence.
    + cbn in F. lia.
    + exists h', (n :: l2), g2. cbn [hd_error copy_loop].
      split; [|rewrite <- !app_assoc in *; cbn [app] in *; auto].
      revert E1. unfold copy_slice. unfold rd at 1 3. rewrite (Oa a La), S1. cbn [obind h_gin h_gout].
      rewrite P1. cbn [obind]. rewrite P2. cbn [obind fst snd new_slice]. intros E1. rewrite E1. cbn [obind].
      unfold rd. rewrite W3 by lia. rewrite (Oa a La), S1. cbn [obind h_next].
      replace (nxt lr None) with (hd_error lr) by (destruct lr; reflexivity). exact E2.
Qed.

Lemma copy_spec h l gs x fuel : hok h -> rep h l gs x -> x <> [] -> (length x <= fuel)%nat ->
  exists h' lc gc, copy_loop fuel h (hd_error l) None None = Done (hd_error lc, h') /\ hok h' /\ rep h' lc gc x /\
    between (hnxt h) (hnxt h') lc /\ between (hnxt h) (hnxt h') gc /\ others lc gc h h'.
Proof.
  intros K R N F. destruct (rep_seg _ _ _ _ R) as (g0 & gq & -> & S0). destruct x as [|s x]; [congruence|]. clear N.
  destruct l as [|a l]; [destruct g0; cbn in S0; tauto|]. destruct g0 as [|g g0]; [cbn in S0; tauto|].
  assert (Bl : forall c, List.In c (a :: l) -> (c < hnxt h)%nat).
  { intros c I. destruct (seg_in _ c _ _ _ _ _ _ S0 I) as (sc & Ec). eapply hok_lt; eauto. }
  assert (Bg : forall c, List.In c ((g :: g0) ++ [gq]) -> (c < hnxt h)%nat).
  { intros c I. destruct (In_nth_error _ _ I) as (k & Ek). destruct (rep_gate _ _ _ _ k c R) as (v & Ev); auto; [discriminate|]. eapply hok_ltg; eauto. }
  destruct S0 as (S1 & S2 & S3 & S4). destruct fuel as [|fuel]; [cbn in F; lia|].
  assert (P1 : rdg h (Some g) = Done (s_in s)) by (cbn; rewrite S2; auto).
  assert (P2 : rdg h (Some (nxtg g0 gq)) = Done (s_out s)) by (cbn; rewrite S3; auto).
  assert (La : (a < hnxt h)%nat) by (apply Bl; left; auto).
  cbn [hd_error copy_loop]. unfold copy_slice, rd at 1. rewrite S1. cbn [obind h_gin h_gout]. rewrite P1. cbn [obind]. rewrite P2. cbn [obind h_lb h_ub h_cod]. unfold new_slice. cbn [fst snd obind].
  unfold rd. cbn [hsl]. rewrite put_neq by lia. rewrite S1. cbn [obind h_next]. set (n := hnxt h) in *. set (h1 := mkHeap _ _ _).
  assert (K1 : hok h1). { intros c Lc. subst h1. cbn in Lc |- *. rewrite !put_neq by lia. apply K. fold n. lia. }
  edestruct (copy_rest x fuel h1 h l g0 gq (Some a) [] [n] [s] n (S n) (Some n) S4) as (h' & l2 & g2 & E2 & I1 & I2 & I3 & I4 & I5); auto.
  - intros c I. apply Bl. right; auto.
  - intros c I. apply Bg. right; auto.
  - cbn. subst h1. cbn. rewrite !put_eq, put_neq by lia. rewrite put_eq. auto.
  - cbn. repeat constructor. auto.
  - cbn. repeat constructor; cbn; auto. intros [E|[]]. lia.
  - intros c [<-|[]]. subst h1. cbn. fold n. lia.
  - intros c [<-|[<-|[]]]; subst h1; cbn; fold n; lia.
  - split; intros c I; cbn in I; subst h1; cbn; rewrite !put_neq by (intros ->; apply I; auto); auto.
  - intros s' r E. subst x. cbn. destruct l as [|a2 l]; [destruct g0; cbn in S4; tauto|]. destruct g0 as [|g2' g0]; [cbn in S4; tauto|].
    cbn in S3, S4. destruct S4 as (_ & S5 & _). congruence.
  - cbn in F. lia.
  - exists h', (n :: l2), g2. replace (nxt l None) with (hd_error l) by (destruct l; reflexivity). cbn [app hd_error] in *. rewrite E2. auto 10.
Qed.

(** symbolic execution *)
Ltac sx := repeat (first
  [ progress cbn [obind rdg wrg freeg hsl hgt hnxt h_lb h_ub h_cod h_prev h_next h_gin h_gout w_prev w_next w_gin w_gout w_cod w_dom fst snd]
  | rewrite put_eq | rewrite put_neq by (solve [auto | lia | congruence])
  | match goal with
    | H : hsl ?h ?a = Some _ |- context [hsl ?h ?a] => rewrite H
    | H : hgt ?h ?a = Some _ |- context [hgt ?h ?a] => rewrite H
    | H : h_gin ?s = _ |- context [h_gin ?s] => rewrite H
    | H : h_gout ?s = _ |- context [h_gout ?s] => rewrite H
    | H : h_next ?s = _ |- context [h_next ?s] => rewrite H
    end
  | progress unfold rd, wr ]).

(** ** Sampling *)
Lemma sample_effect h t a s n : hok h -> hsl h a = Some s -> n = hnxt h -> h_lb s < t < h_ub s -> forall gi go vi vo,
  h_gin s = Some gi -> h_gout s = Some go -> hgt h gi = Some vi -> hgt h go = Some vo ->
  (forall p, h_prev s = Some p -> p <> a) ->
  let gg := inter (inter (h_cod s) (h_cod s)) (h_cod s) in
  (h_next s = None -> exists h', hsample_at h t a = Done h' /\
     hsl h' a = Some (mkH (h_lb s) t (h_cod s) (h_prev s) (Some n) (Some gi) (Some go)) /\
     hsl h' n = Some (mkH t (h_ub s) (h_cod s) (Some a) None (Some go) (Some (S n))) /\
     (forall c, c <> a -> c <> n -> hsl h' c = hsl h c) /\
     hgt h' go = Some gg /\ hgt h' (S n) = Some vo /\ (forall g, g <> go -> g <> S n -> hgt h' g = hgt h g) /\ hnxt h' = S (S n)) /\
  (forall b sb vb, h_next s = Some b -> hsl h b = Some sb -> b <> a -> h_gin sb = Some go -> hgt h go = Some vb ->
   exists h', hsample_at h t a = Done h' /\
     hsl h' a = Some (mkH (h_lb s) t (h_cod s) (h_prev s) (Some n) (Some gi) (Some go)) /\
     hsl h' n = Some (mkH t (h_ub s) (h_cod s) (Some a) (Some b) (Some go) (Some (S n))) /\
     hsl h' b = Some (w_gin (Some (S n)) (w_prev (Some n) sb)) /\
     (forall c, c <> a -> c <> n -> c <> b -> hsl h' c = hsl h c) /\
     hgt h' go = Some gg /\ hgt h' (S n) = Some (inter vo vb) /\ (forall g, g <> go -> g <> S n -> hgt h' g = hgt h g) /\ hnxt h' = S (S n)).
Proof.
  intros K Ea En T gi go vi vo Gi Go Vi Vo Hp gg. assert (La := hok_lt _ _ _ K Ea). assert (Lo := hok_ltg _ _ _ K Vo). assert (Li := hok_ltg _ _ _ K Vi). rewrite <- En in *.
  assert (S1 : (n <= S n)%nat) by lia.
  assert (C1 : Rleb (h_lb s) t && Rleb t (h_ub s) = true) by (apply andb_true_iff; split; apply Rleb_true; lra).
  assert (C2 : Reqb (h_lb s) t || Reqb (h_ub s) t = false) by (apply orb_false_iff; split; apply Reqb_false; lra).
  split.
  - intros Nx. eexists. split.
    { unfold hsample_at. sx. rewrite C1, C2. unfold copy_slice, new_slice. rewrite <- En. sx. unfold chain_slices. sx. unfold hset_input_gate, cod_of. sx. reflexivity. }
    cbn [hsl hgt hnxt]. split; [hp; unfold w_next, w_dom, w_gin, w_prev; cbn; rewrite ?Gi, ?Go; reflexivity|]. split; [hp; unfold w_next, w_dom, w_gin, w_prev; cbn; rewrite ?Nx; reflexivity|].
    split; [intros c N1 N2; hp; auto|]. split; [hp; reflexivity|]. split; [hp; auto|]. split; [|reflexivity].
    intros g N1 N2. destruct (Nat.eq_dec g n) as [->|N3]; [|hp; auto]. hp. symmetry. apply K. lia.
  - intros b sb vb Nx Eb Nb Gb Vb. assert (Lb := hok_lt _ _ _ K Eb). rewrite <- En in Lb. eexists. split.
    { unfold hsample_at. sx. rewrite C1, C2. unfold copy_slice, new_slice. rewrite <- En. sx. unfold chain_slices. sx. unfold hset_input_gate, cod_of. sx. reflexivity. }
    assert (vb = vo) as -> by congruence.
    cbn [hsl hgt hnxt]. split; [hp; unfold w_next, w_dom, w_gin, w_prev; cbn; rewrite ?Gi, ?Go; reflexivity|]. split; [hp; unfold w_next, w_dom, w_gin, w_prev; cbn; rewrite ?Nx; reflexivity|].
    split; [hp; reflexivity|]. split; [intros c N1 N2 N3; hp; auto|]. split; [hp; reflexivity|]. split; [hp; auto|]. split; [|reflexivity].
    intros g N1 N2. destruct (Nat.eq_dec g n) as [->|N3]; [|hp; auto]. hp. symmetry. apply K. lia.
Qed.

(** ** Transitions of one structure: what is not in the new structure is freed, the new objects are fresh, nothing else moves *)
Record trans (l gs l' gs' : list nat) (h h' : heap) : Prop := {
  tr_oth : others (l ++ l') (gs ++ gs') h h';
  tr_free : forall a, List.In a l -> ~ List.In a l' -> hsl h' a = None;
  tr_freeg : forall g, List.In g gs -> ~ List.In g gs' -> hgt h' g = None;
  tr_new : forall a, List.In a l' -> ~ List.In a l -> (hnxt h <= a)%nat;
  tr_newg : forall g, List.In g gs' -> ~ List.In g gs -> (hnxt h <= g)%nat;
  tr_ok : hok h';
  tr_nxt : (hnxt h <= hnxt h')%nat }.

Lemma rep_lt h l gs x a : hok h -> rep h l gs x -> List.In a l -> (a < hnxt h)%nat.
Proof. intros K R I. destruct (In_nth_error _ _ I) as (k & Ek). destruct (rep_slice _ _ _ _ _ _ R Ek) as (s & Es). eapply hok_lt; eauto. eapply rp_cell; eauto. Qed.
Lemma rep_ltg h l gs x g : hok h -> rep h l gs x -> x <> [] -> List.In g gs -> (g < hnxt h)%nat.
Proof. intros K R N I. destruct (In_nth_error _ _ I) as (k & Ek). destruct (rep_gate _ _ _ _ _ _ R N Ek) as (s & Es). eapply hok_ltg; eauto. Qed.
Lemma does_trans h l gs x o y : hok h -> rep h l gs x -> x <> [] -> does h l gs o y -> exists h', o = Done h' /\ rep h' l gs y /\ trans l gs l gs h h'.
Proof.
  intros K R N (h' & E & R' & O & Nx). exists h'. split; auto. split; auto. constructor; try tauto; try lia.
  - destruct O. split; intros c I; [apply H|apply H0]; rewrite in_app_iff in I; tauto.
  - intros c Lc. rewrite Nx in Lc. destruct O as [O1 O2]. destruct (K c Lc). rewrite O1, O2; auto; intros I.
    + apply (rep_ltg _ _ _ _ _ K R N) in I. lia.
    + apply (rep_lt _ _ _ _ _ K R) in I. lia.
Qed.
Lemma trans_refl l gs h : hok h -> trans l gs l gs h h.
Proof. intros K. constructor; try tauto; auto. apply others_refl. Qed.

(** ** Search of a slice *)
Lemma find_seg h t gq : forall x l p gs fuel last, seg h p l gs x None gq -> x <> [] -> (length x <= fuel)%nat ->
  exists x1 s x2 l1 a l2, x = x1 ++ s :: x2 /\ l = l1 ++ a :: l2 /\ length l1 = length x1 /\ length x1 = time_to_index t x /\
    find fuel h t (hd_error l) last = Done a /\ sample t x = x1 ++ sample_slice t s x2.
Proof.
  induction x as [|s x IH]; intros [|a l] p [|g gs] fuel last H N F; cbn in H; try tauto. destruct H as (A & B & C & D).
  destruct fuel as [|fuel]; [cbn in F; lia|]. cbn [hd_error find]. unfold rd. rewrite A. cbn [obind h_ub h_next]. cbn [time_to_index sample].
  destruct (Rltb t (s_ub s)) eqn:E. { exists [], s, x, [], a, l. auto 10. }
  destruct x as [|s2 x].
  - destruct l as [|a2 l]; [|destruct gs; cbn in D; tauto]. exists [], s, [], [], a, []. repeat split; auto. destruct fuel; reflexivity.
  - destruct l as [|a2 l]; [destruct gs; cbn in D; tauto|]. destruct (IH (a2 :: l) (Some a) gs fuel (Some a) D) as (x1 & s' & x2 & l1 & a' & l2 & E1 & E2 & E3 & E4 & E5 & E6); [discriminate|cbn in F |- *; lia|].
    exists (s :: x1), s', x2, (a :: l1), a', l2. rewrite E1, E2. cbn [app length]. rewrite <- E1, <- E2, E6. repeat split; auto.
Qed.

(** an insertion in the middle of the lists *)
Lemma NoDup_insert (l1 l2 : list nat) n : NoDup (l1 ++ l2) -> ~ List.In n (l1 ++ l2) -> NoDup (l1 ++ n :: l2).
Proof. intros N I. apply (NoDup_Add (a := n) (l := l1 ++ l2)); [apply Add_app|auto]. Qed.

Lemma sample_at_seg h t l1 a l2 g1 g g2 x1 s x2 gq fuel : hok h -> let G := g1 ++ g :: g2 in
  seg h None (l1 ++ a :: l2) G (x1 ++ s :: x2) None gq -> length l1 = length x1 -> length g1 = length x1 ->
  NoDup (l1 ++ a :: l2) -> NoDup (G ++ [gq]) -> s_lb s < t < s_ub s -> (0 <= fuel)%nat ->
  exists h' l' gs', hsample_at h t a = Done h' /\ rep h' l' gs' (x1 ++ sample_slice t s x2) /\ hd_error l' = hd_error (l1 ++ a :: l2) /\
    trans (l1 ++ a :: l2) (G ++ [gq]) l' gs' h h'.
Proof.
  intros K G Hs L1 L2 N1 N2 T _. subst G. set (n := hnxt h).
  assert (R : rep h (l1 ++ a :: l2) ((g1 ++ g :: g2) ++ [gq]) (x1 ++ s :: x2)) by (apply seg_rep; auto).
  assert (NE : x1 ++ s :: x2 <> []) by (destruct x1; discriminate).
  assert (Ba := fun c => rep_lt _ _ _ _ c K R). assert (Bg := fun c => rep_ltg _ _ _ _ c K R NE). fold n in Ba, Bg.
  assert (Hs' := Hs). apply seg_app in Hs'; try lia. destruct Hs' as (H1 & H2). cbn [nxt nxtg] in H1. cbn [seg] in H2. destruct H2 as (Ea & Eg & Eo & H3).
  set (go := nxtg g2 gq) in *.
  assert (Ngo : g <> go). { intros E. rewrite <- app_assoc in N2. apply NoDup_remove in N2. destruct N2 as [_ N2]. apply N2. rewrite E. apply in_or_app. right. unfold go. destruct g2; cbn; auto. }
  assert (Igo : List.In go ((g1 ++ g :: g2) ++ [gq])). { rewrite !in_app_iff. unfold go. destruct g2; cbn; auto. }
  assert (Na : forall c, List.In c l1 \/ List.In c l2 -> c <> a).
  { intros c I ->. apply NoDup_remove_2 in N1. apply N1. apply in_or_app. tauto. }
  assert (Ng1 : forall c, List.In c (g1 ++ [g]) -> c <> go).
  { intros c I ->. replace ((g1 ++ g :: g2) ++ [gq]) with ((g1 ++ [g]) ++ (g2 ++ [gq])) in N2 by (rewrite <- !app_assoc; reflexivity).
    revert N2 I. unfold go. clear. induction (g1 ++ [g]) as [|c l IH]; cbn; [tauto|]. intros N [->|I]; inversion N; subst; [|auto].
    apply H1. apply in_or_app. right. destruct g2; cbn; auto. }
  assert (Hp : forall p, lastp None l1 = Some p -> p <> a).
  { intros p E. apply Na. left. unfold lastp in E. destruct (rev l1) eqn:Er; [discriminate|]. injection E as <-. apply in_rev. rewrite Er. cbn; auto. }
  destruct (sample_effect h t a _ n K Ea eq_refl T g go _ _ eq_refl eq_refl Eg Eo Hp) as [EN ES]. cbn [h_lb h_ub h_cod h_prev h_next] in EN, ES.
  assert (SS : sample_slice t s x2 = let '(new1, rest1) := chain_rest (set_dom t (s_ub s) s) x2 in
     let gg := inter (inter (s_cod s) (s_cod s)) (s_cod s) in set_out gg (set_dom (s_lb s) t s) :: set_in gg new1 :: rest1).
  { unfold sample_slice. replace (Reqb (s_lb s) t || Reqb (s_ub s) t) with false by (symmetry; apply orb_false_iff; split; apply Reqb_false; lra).
    destruct x2; reflexivity. }
  set (gg := inter (inter (s_cod s) (s_cod s)) (s_cod s)) in *.
  destruct l2 as [|b l2].
  - destruct g2 as [|b2 g2]; [|destruct x2; cbn in H3; tauto]. destruct x2 as [|s2 x2]; [|cbn in H3; tauto]. cbn [nxtg] in go. subst go. cbn [nxt] in *.
    destruct (EN eq_refl) as (h' & W0 & W1 & W2 & W3 & W4 & W5 & W6 & W7).
    exists h', (l1 ++ [a; n]), ((g1 ++ [g; gq]) ++ [S n]). split; auto. rewrite SS. cbn [chain_rest]. cbv zeta.
    assert (NDl : NoDup (l1 ++ [a; n])). { replace (l1 ++ [a; n]) with ((l1 ++ [a]) ++ [n]) by (rewrite <- app_assoc; reflexivity). apply NoDup_snoc; auto. intros I. apply Ba in I. lia. }
    assert (NDg : NoDup ((g1 ++ [g; gq]) ++ [S n])). { replace (g1 ++ [g; gq]) with ((g1 ++ [g]) ++ [gq]) by (rewrite <- app_assoc; reflexivity). apply NoDup_snoc; auto. intros I. apply Bg in I. lia. }
    split; [apply seg_rep; auto|].
    { apply seg_app; [lia..|]. split.
      - cbn [nxt nxtg]. apply (seg_frame h); auto.
        + intros c I. apply W3; auto. intros ->. assert (n < n)%nat; [|lia]. apply Ba. apply in_or_app; auto.
        + intros c I. apply W6. { apply Ng1. apply in_or_app; auto. } intros ->. assert (S n < n)%nat; [|lia]. apply Bg. rewrite !in_app_iff. auto.
        + intros _. apply W6; auto. intros ->. assert (S n < n)%nat; [|lia]. apply Bg. rewrite !in_app_iff. cbn; auto.
      - cbn [seg nxt nxtg]. rewrite W1, W2, W4, W5. rewrite W6; [|auto|]. { rewrite Eg. repeat split. }
        intros ->. assert (S n < n)%nat; [|lia]. apply Bg. rewrite !in_app_iff. cbn; auto. }
    split; [destruct l1; reflexivity|]. constructor.
    + split; intros c I; rewrite !in_app_iff in I; cbn in I; [apply W3|apply W6]; intros ->; apply I; auto 10.
    + intros c I N. exfalso. apply N. rewrite in_app_iff in *. cbn in *. tauto.
    + intros c I N. exfalso. apply N. rewrite !in_app_iff in *. cbn in *. tauto.
    + intros c I N. rewrite in_app_iff in *. cbn in *. fold n. assert (c = n) by (destruct I as [I|[I|[I|[]]]]; auto; exfalso; apply N; auto). lia.
    + intros c I N. rewrite !in_app_iff in *. cbn in *. fold n. assert (c = S n) by (destruct I as [[I|[I|[I|[]]]]|[I|[]]]; auto; exfalso; apply N; auto). lia.
    + intros c Lc. rewrite W7 in Lc. assert (NotI : ~ List.In c ((g1 ++ [g]) ++ [gq])) by (intros I; apply Bg in I; lia).
      rewrite W3, W6; [apply K; fold n; lia| |lia| |lia]; intros ->. { apply NotI. rewrite !in_app_iff. cbn. auto. } assert (a < n)%nat by (apply Ba; rewrite in_app_iff; cbn; auto). lia.
    + fold n. lia.
  - destruct g2 as [|b2 g2]; [cbn in H3; tauto|]. destruct x2 as [|s2 x2]; [cbn in H3; tauto|]. cbn [nxtg] in go. subst go. cbn [nxt] in *. cbn [seg] in H3. destruct H3 as (Eb & Eb2 & Eb3 & H4).
    assert (Nb : b <> a) by (apply Na; right; cbn; auto).
    destruct (ES b _ (s_out s) eq_refl Eb Nb eq_refl Eo) as (h' & W0 & W1 & W2 & W2b & W3 & W4 & W5 & W6 & W7). unfold w_gin, w_prev in W2b. cbn [h_lb h_ub h_cod h_next h_gout h_prev] in W2b.
    exists h', (l1 ++ a :: n :: b :: l2), ((g1 ++ g :: b2 :: S n :: g2) ++ [gq]). split; auto. rewrite SS. cbn [chain_rest]. cbv zeta.
    assert (Perm : NoDup (l1 ++ a :: n :: b :: l2)).
    { replace (l1 ++ a :: n :: b :: l2) with ((l1 ++ [a]) ++ n :: b :: l2) by (rewrite <- app_assoc; reflexivity). apply NoDup_insert; rewrite <- app_assoc; auto. intros I. apply Ba in I. lia. }
    assert (NDg : NoDup ((g1 ++ g :: b2 :: S n :: g2) ++ [gq])).
    { replace ((g1 ++ g :: b2 :: S n :: g2) ++ [gq]) with ((g1 ++ [g; b2]) ++ S n :: (g2 ++ [gq])) by (rewrite <- !app_assoc; reflexivity). apply NoDup_insert.
      - revert N2. rewrite <- !app_assoc. auto. - intros I. assert (S n < n)%nat; [|lia]. apply Bg. revert I. rewrite <- !app_assoc. auto. }
    assert (N1b : ~ List.In b (l1 ++ a :: l2)) by (replace (l1 ++ a :: b :: l2) with ((l1 ++ [a]) ++ b :: l2) in N1 by (rewrite <- app_assoc; reflexivity); apply NoDup_remove_2 in N1; rewrite <- app_assoc in N1; auto).
    assert (N2b : ~ List.In b2 ((g1 ++ g :: g2) ++ [gq])).
    { replace ((g1 ++ g :: b2 :: g2) ++ [gq]) with ((g1 ++ [g]) ++ b2 :: (g2 ++ [gq])) in N2 by (rewrite <- !app_assoc; reflexivity). apply NoDup_remove_2 in N2. rewrite <- !app_assoc in *. auto. }
    assert (Hin : s_in s2 = s_out s) by congruence.
    assert (Fs : forall c, c = g \/ List.In c g1 \/ List.In c g2 \/ c = gq -> hgt h' c = hgt h c).
    { intros c I. apply W6; intros ->.
      - apply N2b. rewrite !in_app_iff. cbn. intuition auto.
      - assert (S n < n)%nat; [|lia]. apply Bg. rewrite !in_app_iff. cbn. intuition auto. }
    split; [apply seg_rep; auto|].
    { apply seg_app; [lia..|]. split.
      - cbn [nxt nxtg]. apply (seg_frame h); auto.
        intros c I. apply W3. { auto. } { intros ->. assert (n < n)%nat; [|lia]. apply Ba. apply in_or_app; auto. } intros ->. apply N1b. apply in_or_app; auto.
      - cbn [seg nxt nxtg s_out s_in s_cod s_lb s_ub set_in set_out set_dom]. rewrite W1, W2, W2b, W4, W5. rewrite Fs by auto. rewrite Eg.
        assert (NG : nxtg g2 gq = gq \/ List.In (nxtg g2 gq) g2) by (destruct g2; cbn; auto). rewrite (Fs (nxtg g2 gq)) by tauto. rewrite Eb3. rewrite Hin.
        split; [reflexivity|]. split; [reflexivity|]. split; [reflexivity|]. split; [reflexivity|]. split; [reflexivity|]. split; [reflexivity|]. split; [reflexivity|]. split; [reflexivity|]. split; [reflexivity|].
        apply (seg_frame h); auto. intros c I. apply W3; intros ->.
        + apply (Na a); auto. right; right; auto.
        + assert (n < n)%nat; [|lia]. apply Ba. rewrite in_app_iff; cbn; auto.
        + apply N1b. rewrite in_app_iff; cbn; auto. }
    split; [destruct l1; reflexivity|]. constructor.
    + split; intros c I; rewrite !in_app_iff in I; cbn in I; [apply W3|apply W6]; intros ->; apply I; auto 10.
    + intros c I N. exfalso. apply N. rewrite in_app_iff in *. cbn in *. tauto.
    + intros c I N. exfalso. apply N. rewrite !in_app_iff in *. cbn in *. tauto.
    + intros c I N. rewrite in_app_iff in *. cbn in *. fold n. assert (c = n) by (destruct I as [I|[I|[I|I]]]; auto; exfalso; apply N; auto). lia.
    + intros c I N. rewrite !in_app_iff in *. cbn in *. fold n. assert (c = S n) by (destruct I as [[I|[I|[I|[I|I]]]]|I]; auto; exfalso; apply N; auto). lia.
    + intros c Lc. rewrite W7 in Lc. assert (NotI : ~ List.In c ((g1 ++ g :: b2 :: g2) ++ [gq])) by (intros I; apply Bg in I; lia).
      assert (NotA : ~ List.In c (l1 ++ a :: b :: l2)) by (intros I; apply Ba in I; lia).
      rewrite W3, W6; [apply K; fold n; lia| |lia| |lia|]; intros ->; [apply NotI|apply NotA|apply NotA]; rewrite !in_app_iff; cbn; auto.
    + fold n. lia.
Qed.

Lemma sample_spec h l gs x t fuel s : hok h -> rep h l gs x -> x <> [] -> (length x <= fuel)%nat -> nth_error x (time_to_index t x) = Some s -> s_lb s <= t <= s_ub s ->
  exists h' l' gs', hsample fuel h (hd_error l) t = Done h' /\ rep h' l' gs' (sample t x) /\ hd_error l' = hd_error l /\ trans l gs l' gs' h h'.
Proof.
  intros K R N F Es T. assert (N1 := rp_nd _ _ _ _ R). assert (N2 := rp_gnd _ _ _ _ R). destruct (rep_seg _ _ _ _ R) as (g0 & gq & -> & S0).
  destruct (find_seg h t gq x l None g0 fuel None S0 N F) as (x1 & s' & x2 & l1 & a & l2 & E1 & E2 & E3 & E4 & E5 & E6).
  unfold hsample. rewrite E5. cbn [obind]. rewrite E6. rewrite <- E4, E1, nth_error_app2, Nat.sub_diag in Es by lia. cbn in Es. injection Es as ->.
  assert (Ea : nth_error l (length x1) = Some a) by (rewrite E2, nth_error_app2, E3, Nat.sub_diag by lia; reflexivity).
  assert (Ex : nth_error x (length x1) = Some s) by (rewrite E1, nth_error_app2, Nat.sub_diag by lia; reflexivity).
  destruct (Reqb (s_lb s) t || Reqb (s_ub s) t) eqn:C.
  - exists h, l, (g0 ++ [gq]). unfold hsample_at. rewrite (rd_spec _ _ _ _ _ _ _ R Ea Ex). cbn [obind h_lb h_ub].
    replace (Rleb (s_lb s) t && Rleb t (s_ub s)) with true by (symmetry; apply andb_true_iff; split; apply Rleb_true; lra). rewrite C. split; auto.
    unfold sample_slice. rewrite C. rewrite <- E1. split; auto. split; auto. apply trans_refl; auto.
  - apply orb_false_iff in C. destruct C as [C1 C2]. apply Reqb_false in C1. apply Reqb_false in C2.
    destruct (seg_len _ _ _ _ _ _ _ S0) as [L1 L2]. subst l. rewrite app_length in L1. cbn in L1.
    destruct (nth_error_split g0 (length x1)) with (a := nth (length x1) g0 0%nat) as (g1 & g2 & Eg & Lg). { apply nth_error_nth'. lia. }
    subst x. rewrite Eg in *. apply (sample_at_seg h t l1 a l2 g1 _ g2 x1 s x2 gq fuel); auto; try lia. lra.
Qed.

(** ** Merging *)
(** the statements of Slice::merge_slices after the new values of the first slice *)
Definition merge_tail (h : heap) (a b : nat) (gob nx : option nat) : out heap :=
  v <- rdg h gob ;;
  let n := hnxt h in
  let h := mkHeap (hsl h) (put (hgt h) n (Some v)) (S n) in
  h <- wr h a (w_gout (Some n)) ;; h <- wr h b (w_prev None) ;; h <- wr h b (w_next None) ;; h <- del_slice h b ;; h <- wr h a (w_next nx) ;;
  match nx with Some c => h <- wr h c (w_prev (Some a)) ;; wr h c (w_gin (Some n)) | None => Done h end.

Lemma merge_tail_effect h a b sa sb gm go vm vo n : hok h -> n = hnxt h -> hsl h a = Some sa -> hsl h b = Some sb -> a <> b ->
  h_gin sb = Some gm -> h_gout sb = Some go -> hgt h gm = Some vm -> hgt h go = Some vo -> gm <> go ->
  (forall c, h_next sb = Some c -> c <> a /\ c <> b /\ exists sc, hsl h c = Some sc) ->
  exists h', merge_tail h a b (Some go) (h_next sb) = Done h' /\
    hsl h' a = Some (w_next (h_next sb) (w_gout (Some n) sa)) /\ hsl h' b = None /\
    (forall c sc, h_next sb = Some c -> hsl h c = Some sc -> hsl h' c = Some (w_gin (Some n) (w_prev (Some a) sc))) /\
    (forall c, c <> a -> c <> b -> h_next sb <> Some c -> hsl h' c = hsl h c) /\
    hgt h' n = Some vo /\ hgt h' gm = None /\ hgt h' go = None /\ (forall g, g <> n -> g <> gm -> g <> go -> hgt h' g = hgt h g) /\ hnxt h' = S n.
Proof.
  intros K En Ea Eb Nab Gm Go Vm Vo Ngm Hc. assert (Lm := hok_ltg _ _ _ K Vm). assert (Lo := hok_ltg _ _ _ K Vo). rewrite <- En in *.
  destruct (h_next sb) as [c|] eqn:Ec.
  - destruct (Hc c eq_refl) as (Nca & Ncb & sc & Esc). eexists. split.
    { unfold merge_tail. sx. rewrite <- En. unfold del_slice. sx. reflexivity. }
    cbn [hsl hgt hnxt]. split; [hp; reflexivity|]. split; [hp; reflexivity|]. split; [intros c' sc' E1 E2; injection E1 as <-; rewrite Esc in E2; injection E2 as <-; hp; reflexivity|].
    split; [intros c' N1 N2 N3; hp; auto|]. split; [hp; reflexivity|]. split; [hp; reflexivity|]. split; [hp; reflexivity|]. split; [|reflexivity]. intros g N1 N2 N3. hp. reflexivity.
  - eexists. split.
    { unfold merge_tail. sx. rewrite <- En. unfold del_slice. sx. reflexivity. }
    cbn [hsl hgt hnxt]. split; [hp; reflexivity|]. split; [hp; reflexivity|]. split; [discriminate|].
    split; [intros c' N1 N2 N3; hp; auto|]. split; [hp; reflexivity|]. split; [hp; reflexivity|]. split; [hp; reflexivity|]. split; [|reflexivity]. intros g N1 N2 N3. hp. reflexivity.
Qed.

Lemma NoDup_app_not {A} (l1 l2 : list A) a : NoDup (l1 ++ l2) -> List.In a l1 -> List.In a l2 -> False.
Proof. induction l1 as [|b l1 IH]; cbn; [tauto|]. intros N [->|I] J; inversion N; subst; [apply H1; apply in_or_app; auto|auto]. Qed.
Lemma NoDup_app_drop {A} (l1 l2 l3 : list A) : NoDup (l1 ++ l2 ++ l3) -> NoDup (l1 ++ l3).
Proof.
  induction l1 as [|a l1 IH]; cbn.
  - induction l2; cbn; auto. intros N. inversion N; auto.
  - intros N. inversion N; subst. constructor; auto. rewrite !in_app_iff in *. tauto.
Qed.

Lemma merge_tail_seg h l1 a b l3 g1 gi gm g3 y1 u1 u2 y3 gq : hok h ->
  seg h None (l1 ++ a :: b :: l3) (g1 ++ gi :: gm :: g3) (y1 ++ u1 :: u2 :: y3) None gq -> length l1 = length y1 -> length g1 = length y1 ->
  NoDup (l1 ++ a :: b :: l3) -> NoDup ((g1 ++ gi :: gm :: g3) ++ [gq]) ->
  exists h' gs', merge_tail h a b (Some (nxtg g3 gq)) (nxt l3 None) = Done h' /\ rep h' (l1 ++ a :: l3) gs' (y1 ++ set_out (s_out u2) u1 :: y3) /\
    trans (l1 ++ a :: b :: l3) ((g1 ++ gi :: gm :: g3) ++ [gq]) (l1 ++ a :: l3) gs' h h'.
Proof.
  intros K Hs L1 L2 N1 N2. set (n := hnxt h).
  assert (R : rep h (l1 ++ a :: b :: l3) ((g1 ++ gi :: gm :: g3) ++ [gq]) (y1 ++ u1 :: u2 :: y3)) by (apply seg_rep; auto).
  assert (NE : y1 ++ u1 :: u2 :: y3 <> []) by (destruct y1; discriminate).
  assert (Ba := fun c => rep_lt _ _ _ _ c K R). assert (Bg := fun c => rep_ltg _ _ _ _ c K R NE). fold n in Ba, Bg.
  assert (Hs' := Hs). apply seg_app in Hs'; try lia. destruct Hs' as (H1 & H2). cbn [nxt nxtg] in H1. cbn [seg nxt nxtg] in H2. destruct H2 as (Ea & Egi & Egm & Eb & _ & Ego & H3).
  set (go := nxtg g3 gq) in *.
  assert (NA : NoDup ((l1 ++ [a; b]) ++ l3)) by (rewrite <- app_assoc; auto).
  assert (NG : NoDup ((g1 ++ [gi; gm]) ++ (g3 ++ [gq]))) by (rewrite <- !app_assoc in *; auto).
  assert (Igo : List.In go (g3 ++ [gq])) by (unfold go; destruct g3; cbn; auto).
  assert (D1 : forall c, List.In c l1 -> c <> a /\ c <> b).
  { intros c I. split; intros ->; eapply (NoDup_app_not l1); eauto; cbn; auto. }
  assert (Nab : a <> b). { intros ->. apply NoDup_remove in N1. apply (proj2 N1). apply in_or_app. cbn. auto. }
  assert (D3 : forall c, List.In c l3 -> c <> a /\ c <> b).
  { intros c I. split; intros ->; eapply (NoDup_app_not (l1 ++ [a; b]) l3); eauto; rewrite in_app_iff; cbn; auto. }
  assert (NG' : NoDup (g1 ++ gi :: gm :: (g3 ++ [gq]))) by (revert NG; rewrite <- !app_assoc; auto).
  assert (G1 : forall c, List.In c g1 \/ c = gi -> c <> gm /\ c <> go).
  { intros c I. split; intros ->.
    - apply (NoDup_app_not (g1 ++ [gi]) (gm :: g3 ++ [gq]) gm); [rewrite <- app_assoc; auto| |cbn; auto]. rewrite in_app_iff. cbn. intuition auto.
    - apply (NoDup_app_not (g1 ++ [gi; gm]) (g3 ++ [gq]) go); auto. rewrite in_app_iff. cbn. intuition auto. }
  assert (Gm : gm <> go). { intros E. apply (NoDup_app_not (g1 ++ [gi; gm]) (g3 ++ [gq]) go); auto. rewrite in_app_iff. cbn. auto. }
  assert (Hn : forall c, nxt l3 None = Some c -> c <> a /\ c <> b /\ exists sc, hsl h c = Some sc).
  { intros c E. destruct l3 as [|c' l3]; [discriminate|]. cbn in E. injection E as <-. destruct (D3 c'); [cbn; auto|]. split; auto. split; auto. eapply seg_in; [apply H3|cbn; auto]. }
  destruct (merge_tail_effect h a b _ _ gm go _ _ n K eq_refl Ea Eb Nab eq_refl eq_refl Egm Ego Gm Hn) as (h' & W0 & W1 & W2 & W3 & W4 & W5 & W6 & W7 & W8 & W9).
  cbn [h_next] in *. unfold w_next, w_gout in W1. cbn [h_lb h_ub h_cod h_prev h_gin h_gout] in W1.
  assert (Og : forall c, List.In c ((g1 ++ gi :: gm :: g3) ++ [gq]) -> c <> gm -> c <> go -> hgt h' c = hgt h c).
  { intros c I A B. apply W8; auto. intros ->. apply Bg in I. lia. }
  assert (SegP : seg h' None l1 g1 y1 (Some a) gi).
  { apply (seg_frame h); auto.
    - intros c I. destruct (D1 c I). apply W4; auto. intros E. destruct l3 as [|c' l3]; [discriminate|]. cbn in E. injection E as ->.
      apply (NoDup_app_not l1 (a :: b :: c :: l3) c); cbn; auto.
    - intros c I. destruct (G1 c); auto. apply Og; auto. rewrite !in_app_iff. auto.
    - intros _. destruct (G1 gi); auto. apply Og; auto. rewrite !in_app_iff. cbn; auto. }
  assert (Hgi : hgt h' gi = Some (s_in u1)). { destruct (G1 gi); auto. rewrite Og; auto. rewrite !in_app_iff. cbn; auto. }
  destruct l3 as [|c l3].
  - destruct g3 as [|c2 g3]; [|destruct y3; cbn in H3; tauto]. destruct y3 as [|s3 y3]; [|cbn in H3; tauto]. cbn [nxtg] in go. subst go.
    exists h', ((g1 ++ [gi]) ++ [n]). split; [exact W0|].
    assert (NDl : NoDup (l1 ++ [a])) by (apply (NoDup_app_drop (l1 ++ [a]) [b] []) in NA || (replace (l1 ++ [a]) with ((l1 ++ [a]) ++ []) by apply app_nil_r; apply (NoDup_app_drop (l1 ++ [a]) [b] []); rewrite <- app_assoc; auto)).
    split; [apply seg_rep; auto|].
    + apply seg_app; [lia..|]. split; [exact SegP|]. cbn [seg nxt nxtg]. rewrite W1. split; [reflexivity|]. split; auto.
    + apply NoDup_snoc. { replace (g1 ++ [gi]) with ((g1 ++ [gi]) ++ []) by apply app_nil_r. apply (NoDup_app_drop (g1 ++ [gi]) [gm; gq] []). rewrite <- app_assoc. auto. }
      intros I. assert (n < n)%nat; [|lia]. apply Bg. rewrite !in_app_iff in *. cbn in *. tauto.
    + constructor.
      * split; intros d I; rewrite !in_app_iff in I; cbn in I; [apply W4; [| |discriminate]|apply W8]; intros ->; apply I; auto 10.
      * intros d I N. rewrite in_app_iff in *. cbn in *. assert (d = b) as -> by (destruct I as [I|[I|[I|[]]]]; auto; exfalso; apply N; auto). auto.
      * intros d I N. rewrite !in_app_iff in *. cbn in *. destruct I as [[I|[I|[I|[]]]]|[I|[]]]; subst; auto; exfalso; apply N; auto.
      * intros d I N. exfalso. apply N. rewrite in_app_iff in *. cbn in *. tauto.
      * intros d I N. fold n. rewrite !in_app_iff in *. cbn in *. destruct I as [[I|[I|[]]]|[I|[]]]; try lia; exfalso; apply N; auto.
      * intros d Ld. rewrite W9 in Ld. assert (NA1 : ~ List.In d (l1 ++ [a; b])) by (intros I; apply Ba in I; lia).
        assert (NG1 : ~ List.In d ((g1 ++ [gi; gm]) ++ [gq])) by (intros I; apply Bg in I; lia). rewrite !in_app_iff in *. cbn in *.
        rewrite W4, W8; [apply K; fold n; lia|lia|intros ->; tauto..|discriminate].
      * fold n. lia.
  - destruct g3 as [|c2 g3]; [cbn in H3; tauto|]. destruct y3 as [|s3 y3]; [cbn in H3; tauto|]. cbn [nxtg] in go. subst go. cbn [seg nxt] in *. destruct H3 as (Ec & Ec1 & Ec2 & H4).
    specialize (W3 c _ eq_refl Ec). unfold w_gin, w_prev in W3. cbn [h_lb h_ub h_cod h_next h_gout h_prev] in W3.
    assert (Nc : ~ List.In c l3). { assert (N := NoDup_app_not (l1 ++ [a; b; c]) l3 c). intros I. apply N; auto. { rewrite <- app_assoc; auto. } rewrite in_app_iff. cbn; auto. }
    assert (Gc : forall d, List.In d g3 \/ d = gq -> d <> gm /\ d <> c2).
    { intros d I. split; intros ->.
      - apply (NoDup_app_not (g1 ++ [gi; gm]) (c2 :: g3 ++ [gq]) gm); auto; [rewrite in_app_iff; cbn; auto|]. cbn. rewrite in_app_iff. cbn. intuition auto.
      - apply (NoDup_app_not (g1 ++ [gi; gm; c2]) (g3 ++ [gq]) c2); [rewrite <- app_assoc; auto|rewrite in_app_iff; cbn; auto|]. rewrite in_app_iff. cbn. intuition auto. }
    exists h', ((g1 ++ gi :: n :: g3) ++ [gq]). split; [exact W0|].
    assert (Ogc : forall d, List.In d g3 \/ d = gq -> hgt h' d = hgt h d).
    { intros d I. destruct (Gc d I). apply Og; auto. rewrite !in_app_iff. cbn. intuition auto. }
    split; [apply seg_rep|].
    + apply seg_app; [lia..|]. split; [exact SegP|]. cbn [seg nxt nxtg s_out s_in s_cod s_lb s_ub set_out]. rewrite W1, W3, W5, Hgi.
      assert (X : List.In (nxtg g3 gq) g3 \/ nxtg g3 gq = gq) by (destruct g3; cbn; auto). rewrite (Ogc _ X), Ec2.
      split; [reflexivity|]. split; [reflexivity|]. split; [reflexivity|]. split; [reflexivity|]. split; [congruence|]. split; [reflexivity|].
      apply (seg_frame h); auto. intros d I. destruct (D3 d); [cbn; auto|]. apply W4; auto. intros E. injection E as ->. auto.
    + replace (l1 ++ a :: c :: l3) with ((l1 ++ [a]) ++ c :: l3) by (rewrite <- app_assoc; reflexivity). apply (NoDup_app_drop (l1 ++ [a]) [b] (c :: l3)). rewrite <- app_assoc. auto.
    + replace ((g1 ++ gi :: n :: g3) ++ [gq]) with ((g1 ++ [gi]) ++ n :: (g3 ++ [gq])) by (rewrite <- !app_assoc; reflexivity). apply NoDup_insert.
      * apply (NoDup_app_drop (g1 ++ [gi]) [gm; c2] (g3 ++ [gq])). rewrite <- app_assoc. auto.
      * intros I. assert (n < n)%nat; [|lia]. apply Bg. rewrite !in_app_iff in *. cbn in *. tauto.
    + constructor.
      * split; intros d I; rewrite !in_app_iff in I; cbn in I; [apply W4|apply W8]; try (intros ->; apply I; auto 10). intros E. injection E as ->. apply I. auto 10.
      * intros d I N. rewrite in_app_iff in *. cbn in *. assert (d = b) as -> by (destruct I as [I|[I|[I|I]]]; auto; exfalso; apply N; auto). auto.
      * intros d I N. rewrite !in_app_iff in *. cbn in *. destruct I as [[I|[I|[I|[I|I]]]]|[I|[]]]; subst; auto; exfalso; apply N; auto 10.
      * intros d I N. exfalso. apply N. rewrite in_app_iff in *. cbn in *. tauto.
      * intros d I N. fold n. rewrite !in_app_iff in *. cbn in *. destruct I as [[I|[I|[I|I]]]|[I|[]]]; try lia; exfalso; apply N; auto 10.
      * intros d Ld. rewrite W9 in Ld. assert (NA1 : ~ List.In d (l1 ++ a :: b :: c :: l3)) by (intros I; apply Ba in I; lia).
        assert (NG1 : ~ List.In d ((g1 ++ gi :: gm :: c2 :: g3) ++ [gq])) by (intros I; apply Bg in I; lia). rewrite !in_app_iff in *. cbn in *.
        rewrite W4, W8; [apply K; fold n; lia|lia|intros ->; tauto..|]. intros E; injection E as ->; tauto.
      * fold n. lia.
Qed.

Lemma trans_trans l gs l' gs' h1 h2 h3 : trans l gs l gs h1 h2 -> trans l gs l' gs' h2 h3 -> trans l gs l' gs' h1 h3.
Proof.
  intros [A1 A2 A3 A4 A5 A6 A7] [B1 B2 B3 B4 B5 B6 B7]. constructor; auto; try lia.
  - destruct A1 as [O1 O2], B1 as [O3 O4]. split; intros c I; [rewrite O3, O1|rewrite O4, O2]; auto; rewrite in_app_iff in *; tauto.
  - intros a I N. specialize (B4 a I N). lia.
  - intros a I N. specialize (B5 a I N). lia.
Qed.
Lemma upd_mid {A} (l1 : list A) f u l2 : upd (length l1) f (l1 ++ u :: l2) = l1 ++ f u :: l2.
Proof. induction l1 as [|a l1 IH]; cbn; congruence. Qed.
Lemma split_two {A} (x : list A) k s1 s2 : nth_error x k = Some s1 -> nth_error x (S k) = Some s2 -> exists x1 x3, x = x1 ++ s1 :: s2 :: x3 /\ length x1 = k.
Proof.
  intros E1 E2. destruct (nth_error_split x k E1) as (x1 & x2 & -> & L). rewrite nth_error_app2 in E2 by lia. replace (S k - length x1)%nat with 1%nat in E2 by lia.
  destruct x2 as [|s x3]; cbn in E2; [discriminate|]. injection E2 as ->. eauto.
Qed.
Lemma set_envelope_len k y c x : length (set_envelope k y c x) = length x.
Proof. unfold set_envelope. destruct (nth_error x k); auto. destruct c; rewrite ?put_gate_len, upd_length; auto. Qed.
Lemma set_envelope_next_out k y x s2 s2' : nth_error x (S k) = Some s2 -> nth_error (set_envelope k y true x) (S k) = Some s2' -> s_out s2' = s_out s2.
Proof.
  intros E E'. unfold set_envelope in E'. destruct (nth_error x k) as [s|]; [|congruence].
  destruct (put_gate_nth _ _ _ _ _ E') as (u & Eu & ->). destruct (put_gate_nth _ _ _ _ _ Eu) as (w & Ew & ->). cbn [s_out].
  replace (Nat.eqb (S (S k)) (S k)) with false by (symmetry; apply Nat.eqb_neq; lia). replace (Nat.eqb (S (S k)) k) with false by (symmetry; apply Nat.eqb_neq; lia).
  rewrite nth_error_upd in Ew. replace (Nat.eqb (S k) k) with false in Ew by (symmetry; apply Nat.eqb_neq; lia). congruence.
Qed.

Lemma merge_spec_at h l gs x k a b s1 s2 : hok h -> rep h l gs x -> nth_error l k = Some a -> nth_error l (S k) = Some b ->
  nth_error x k = Some s1 -> nth_error x (S k) = Some s2 -> s_ub s1 = s_lb s2 ->
  exists h' l1 l3 gs', hmerge h a (Some b) = Done h' /\ l = l1 ++ a :: b :: l3 /\ length l1 = k /\ rep h' (l1 ++ a :: l3) gs' (merge_at k x) /\ trans l gs (l1 ++ a :: l3) gs' h h'.
Proof.
  intros K R Ea Eb E1 E2 Hu. assert (NE : x <> []) by (eapply nonempty_at; eauto).
  destruct (rep_addr _ _ _ _ _ _ R E1) as (a' & gi & gm & Ea' & Ei & Em). destruct (rep_addr _ _ _ _ _ _ R E2) as (b' & gm' & go & Eb' & Em' & Eo).
  assert (a' = a) as -> by congruence. assert (b' = b) as -> by congruence. assert (gm' = gm) as -> by congruence. clear Ea' Eb' Em'.
  unfold hmerge. rewrite (rd_spec _ _ _ _ _ _ _ R Ea E1). cbn [obind]. rewrite (rd_spec _ _ _ _ _ _ _ R Eb E2). cbn [obind h_next h_gout h_gin h_ub h_lb h_cod].
  rewrite Eb, Em, Eo. rewrite !Nat.eqb_refl. replace (Reqb (s_ub s1) (s_lb s2)) with true by (symmetry; apply Reqb_true; auto). cbn [andb].
  destruct (does_trans _ _ _ _ _ _ K R NE (set_envelope_does h l gs x k a (hull (s_cod s1) (s_cod s2)) true R Ea)) as (h1 & D1 & R1 & T1).
  rewrite D1. cbn [obind]. set (X1 := set_envelope k (hull (s_cod s1) (s_cod s2)) true x) in *.
  set (U := Rmin (s_lb s1) (s_lb s2)). set (V := Rmax (s_ub s1) (s_ub s2)).
  assert (K1 := tr_ok _ _ _ _ _ _ T1).
  destruct (nth_error X1 k) as [u1|] eqn:F1. 2:{ apply nth_error_None in F1. unfold X1 in F1. rewrite set_envelope_len in F1. assert (k < length x)%nat by (apply nth_error_Some; congruence). lia. }
  destruct (nth_error X1 (S k)) as [u2|] eqn:F2. 2:{ apply nth_error_None in F2. unfold X1 in F2. rewrite set_envelope_len in F2. assert (S k < length x)%nat by (apply nth_error_Some; congruence). lia. }
  assert (NE1 : X1 <> []) by (eapply nonempty_at; eauto).
  destruct (does_trans _ _ _ _ _ _ K1 R1 NE1 (wr_dom_does h1 l gs X1 k a U V R1 Ea)) as (h2 & D2 & R2 & T2). rewrite D2. cbn [obind].
  assert (K2 := tr_ok _ _ _ _ _ _ T2). assert (O2 := set_envelope_next_out _ _ _ _ _ E2 F2).
  destruct (split_two _ _ _ _ F1 F2) as (y1 & y3 & EX & Ly). destruct (split_two _ _ _ _ Ea Eb) as (l1 & l3 & El & Ll).
  assert (N1 := rp_nd _ _ _ _ R2). assert (N2 := rp_gnd _ _ _ _ R2). destruct (rep_seg _ _ _ _ R2) as (g0 & gq & -> & S0).
  destruct (seg_len _ _ _ _ _ _ _ S0) as [LA LB].
  assert (Ei0 : nth_error g0 k = Some gi). { rewrite nth_error_app1 in Ei; auto. subst l. rewrite app_length in LA. cbn in LA. lia. }
  assert (Em0 : nth_error g0 (S k) = Some gm). { rewrite nth_error_app1 in Em; auto. subst l. rewrite app_length in LA. cbn in LA. lia. }
  destruct (split_two _ _ _ _ Ei0 Em0) as (g1 & g3 & Eg & Lg).
  assert (X2 : upd k (set_dom U V) X1 = y1 ++ set_dom U V u1 :: u2 :: y3) by (rewrite EX, <- Ly; apply upd_mid).
  rewrite X2 in *. subst l. rewrite Eg in *.
  destruct (merge_tail_seg h2 l1 a b l3 g1 gi gm g3 y1 (set_dom U V u1) u2 y3 gq) as (h' & gs' & M1 & M2 & M3); auto; try lia.
  assert (Hgo : nxtg g3 gq = go). { rewrite <- app_assoc, nth_error_app2 in Eo by lia. replace (S (S k) - length g1)%nat with 2%nat in Eo by lia. cbn in Eo. destruct g3; cbn in *; congruence. }
  assert (Hnx : nth_error (l1 ++ a :: b :: l3) (S (S k)) = nxt l3 None). { rewrite nth_error_app2 by lia. replace (S (S k) - length l1)%nat with 2%nat by lia. cbn. destruct l3; reflexivity. }
  exists h', l1, l3, gs'. rewrite Hnx. rewrite Hgo in M1. split; [exact M1|]. split; [reflexivity|]. split; [exact Ll|].
  split; [|eapply trans_trans; [exact T1|eapply trans_trans; [exact T2|exact M3]]].
  replace (merge_at k x) with (y1 ++ set_out (s_out u2) (set_dom U V u1) :: y3); auto.
  unfold merge_at. rewrite E1, E2. fold X1. cbv zeta. fold U V. rewrite EX, <- Ly, upd_mid. rewrite O2.
  replace (S (length y1)) with (length (y1 ++ [set_out (s_out s2) (set_dom U V u1)])) by (rewrite app_length; cbn; lia).
  replace (y1 ++ set_out (s_out s2) (set_dom U V u1) :: u2 :: y3) with ((y1 ++ [set_out (s_out s2) (set_dom U V u1)]) ++ u2 :: y3) by (rewrite <- app_assoc; reflexivity).
  rewrite firstn_app, Nat.sub_diag, firstn_all, firstn_O, app_nil_r.
  replace (S (length (y1 ++ [set_out (s_out s2) (set_dom U V u1)]))) with (length (y1 ++ [set_out (s_out s2) (set_dom U V u1)]) + 1)%nat by lia.
  rewrite skipn_app. rewrite skipn_all2 by lia. replace (_ + 1 - _)%nat with 1%nat by lia. cbn [skipn app]. rewrite <- app_assoc. reflexivity.
Qed.
Lemma merge_spec h l gs x k a b s1 s2 : hok h -> rep h l gs x -> nth_error l k = Some a -> nth_error l (S k) = Some b ->
  nth_error x k = Some s1 -> nth_error x (S k) = Some s2 -> s_ub s1 = s_lb s2 ->
  exists h' l' gs', hmerge h a (Some b) = Done h' /\ rep h' l' gs' (merge_at k x) /\ hd_error l' = hd_error l /\ trans l gs l' gs' h h'.
Proof.
  intros K R Ea Eb E1 E2 Hu. destruct (merge_spec_at h l gs x k a b s1 s2 K R Ea Eb E1 E2 Hu) as (h' & l1 & l3 & gs' & A & -> & _ & B & C).
  exists h', (l1 ++ a :: l3), gs'. split; [auto|]. split; [auto|]. split; [destruct l1; reflexivity|auto].
Qed.

Lemma remove_spec h l gs x t fuel k s1 s2 : hok h -> rep h l gs x -> (length x <= fuel)%nat -> time_to_index t x = S k ->
  nth_error x k = Some s1 -> nth_error x (S k) = Some s2 -> s_ub s1 = t -> s_lb s2 = t ->
  exists h' l' gs', hremove_gate fuel h (hd_error l) t = Done h' /\ rep h' l' gs' (remove_gate t x) /\ hd_error l' = hd_error l /\ trans l gs l' gs' h h'.
Proof.
  intros K R F I E1 E2 U1 U2. assert (NE : x <> []) by (eapply nonempty_at; eauto).
  destruct (rep_seg _ _ _ _ R) as (g0 & gq & -> & S0). destruct (find_seg h t gq x l None g0 fuel None S0 NE F) as (x1 & s & x2 & l1 & b & l2 & P1 & P2 & P3 & P4 & P5 & _).
  assert (Eb : nth_error l (S k) = Some b) by (rewrite P2, nth_error_app2 by lia; replace (S k - length l1)%nat with 0%nat by lia; reflexivity).
  destruct (rep_addr _ _ _ _ _ _ R E1) as (a & _ & _ & Ea & _).
  unfold hremove_gate. rewrite P5. cbn [obind]. rewrite (rd_spec _ _ _ _ _ _ _ R Eb E2). cbn [obind h_lb h_prev prevp].
  replace (Reqb (s_lb s2) t) with true by (symmetry; apply Reqb_true; auto). rewrite Ea. unfold remove_gate. rewrite I.
  apply (merge_spec h l _ x k a b s1 s2); auto; congruence.
Qed.
