(** * C117: fixed point of networks whose domains are intervals, tubes and tube vectors *)

From Coq Require Import Reals Lra Bool List Arith Lia Classical.
Import ListNotations.
From Verif Require Import CN PropsCN Itv Arith Tube TubeSpec TubeFacts Concrete Measure PropsMeasure DomVolume PropsDomVolume.
Open Scope R_scope.

(** ** Any kind of domain whose contractions are noticed *)
Section Fixed.
  Variable D : Type.
  Variable dvol : D -> vol.
  Variable le : D -> D -> Prop.
  Variable ok alive : D -> Prop.
  Hypothesis le_refl : forall d, le d d.
  Hypothesis le_trans : forall a b c, le a b -> le b c -> le a c.
  Hypothesis le_alive : forall d e, le d e -> ok d -> alive d -> alive e.
  Hypothesis strict : forall d e, le d e -> ok d -> ok e -> alive d -> d <> e -> shrunk 0 (dvol d) (dvol e) = true.
  Notation H := (nat -> D).
  Variable run : nat -> H -> H.
  Variable typ : nat -> ctype.
  Variable cdoms dctcs : nat -> list nat.
  Let vol_of (d : nat) (h : H) : vol := dvol (h d).
  Let nocomp (d : nat) : list nat := [].
  Let step := CN.step H run vol_of typ cdoms dctcs nocomp 0.
  Let loop := CN.loop H run vol_of typ cdoms dctcs nocomp 0.
  Let exec := CN.exec H run vol_of typ cdoms dctcs nocomp 0.

  Definition all_ok (h : H) : Prop := forall x, ok (h x).
  Definition hle (h k : H) : Prop := forall x, le (h x) (k x).
  Definition settled (c : nat) (h : H) : Prop := forall x, run c h x = h x.
  Definition well (c : nat) : Prop :=
    typ c <> T_CN /\ (typ c = T_COMPONENT -> forall h, settled c h) /\
    (forall h, all_ok h -> hle (run c h) h /\ all_ok (run c h) /\ settled c (run c h)) /\
    (forall h x, ~ List.In x (cdoms c) -> run c h x = h x) /\
    (forall h k, all_ok h -> all_ok k -> settled c h -> (forall x, List.In x (cdoms c) -> k x = h x) -> settled c k).
  Hypothesis linked : forall c d, List.In d (cdoms c) -> List.In c (dctcs d).

  Let alives (h : H) : Prop := forall x, alive (h x).
  Let K (s : state H) : Prop :=
    queue_ok H typ s /\ all_ok (heap H s) /\ (forall c, List.In c (known H s) -> well c) /\
    (forall c, List.In c (known H s) -> List.In c (deque H s) \/ settled c (heap H s)).
  Let synced (s : state H) : Prop := forall d, saved H s d = dvol (heap H s d).

  Lemma alives_up h k : hle h k -> all_ok h -> alives h -> alives k.
  Proof. intros L O A x. apply (le_alive (h x)); auto. Qed.
  Lemma touched_self c : touched cdoms nocomp c = cdoms c.
  Proof. unfold touched. induction (cdoms c) as [|d l IH]; cbn; auto. rewrite IH. reflexivity. Qed.

  Lemma step_K s : K s -> synced s -> alives (heap H (step s)) -> K (step s) /\ synced (step s).
  Proof.
    intros (Q & Ho & Hg & Hw) Hi Hn. destruct (deque H s) as [|c q] eqn:E.
    { assert (Es : step s = s) by (unfold step, CN.step; rewrite E; auto). rewrite Es. split; auto. split; [auto|split; [auto|split; [auto|]]]. rewrite E. auto. }
    destruct (step_heap H run vol_of typ cdoms dctcs nocomp 0 c q s E) as (Eh & Ek). fold step in Eh, Ek.
    assert (Hc : well c). { apply Hg. destruct Q as (_ & _ & Q3 & Q4 & _). apply Q4, Q3. rewrite E. left; auto. }
    destruct Hc as (C1 & C2 & C3 & C4 & C5). destruct (C3 _ Ho) as (R1 & R2 & R3).
    assert (Q' : queue_ok H typ (step s)) by (apply step_ok; auto).
    assert (Ho' : all_ok (heap H (step s))) by (rewrite Eh; auto).
    pose proof (trigger1s_spec H run vol_of typ cdoms dctcs nocomp 0 (Some c) (touched cdoms nocomp c) (called H run typ c q s) (called_ok H run typ c q s E Q)) as G.
    cbn zeta in G. rewrite <- (step_eq H run vol_of typ cdoms dctcs nocomp 0 c q s E) in G. fold step in G.
    destruct G as (_ & A & B & S1 & S2). rewrite touched_self in *. cbn [CN.heap CN.active CN.saved CN.deque CN.known called] in A, B, S1, S2.
    split.
    - split; [auto|split; [auto|split; [rewrite Ek; auto|]]]. intros c' Hc'. rewrite Ek in Hc'.
      destruct (Hg c' Hc') as (D1 & _ & _ & _ & D5).
      destruct (Nat.eq_dec c' c) as [->|Hne]; [right; rewrite Eh; auto|].
      destruct (Hw c' Hc') as [Hd|Hs].
      + left. destruct Hd as [Hd|Hd]; [congruence|]. destruct Q' as (_ & _ & _ & _ & Q5). apply Q5; auto.
        apply A. destruct Q as (_ & _ & Q3 & _). assert (Ha : active H s c' = true) by (apply Q3; rewrite E; right; auto).
        destruct (is_cn _); auto. rewrite upd_other; auto.
      + destruct (classic (exists x, List.In x (cdoms c') /\ heap H (step s) x <> heap H s x)) as [(x & Hx & Ex)|Hno].
        * left. destruct Q' as (_ & _ & _ & _ & Q5). apply Q5; auto.
          assert (Hxc : List.In x (cdoms c)). { destruct (in_dec Nat.eq_dec x (cdoms c)); auto. exfalso. apply Ex. rewrite Eh. apply C4; auto. }
          apply (B x); auto; [|congruence]. unfold vol_of. rewrite Hi. rewrite Eh in Ex. apply strict; auto. rewrite <- Eh. apply Hn.
        * right. apply (D5 (heap H s)); auto. intros x Hx. apply NNPP. intros N. apply Hno. exists x. auto.
    - intros d. rewrite Eh. destruct (in_dec Nat.eq_dec d (cdoms c)) as [Hd|Hd].
      + rewrite (S1 d Hd). reflexivity.
      + rewrite (S2 d Hd), Hi, (C4 _ d Hd). reflexivity.
  Qed.

  Lemma run_inv (P : H -> Prop) : (forall c h, well c -> all_ok h -> P h -> P (run c h)) ->
    forall c h, well c -> all_ok h /\ P h -> all_ok (run c h) /\ P (run c h).
  Proof. intros Hp c h Hc (Ho & Hh). split; [|auto]. destruct Hc as (_ & _ & C3 & _). apply C3; auto. Qed.
  Lemma down k : forall c h, well c -> all_ok h -> hle h k -> hle (run c h) k.
  Proof. intros c h (_ & _ & C3 & _) Ho Hh x. apply (le_trans _ (h x)); auto. apply C3; auto. Qed.
  Lemma loop_down n s : queue_ok H typ s -> (forall c, List.In c (known H s) -> well c) -> all_ok (heap H s) ->
    all_ok (heap H (loop n s)) /\ hle (heap H (loop n s)) (heap H s).
  Proof.
    intros Q Hg Ho.
    apply (loop_inv H run vol_of typ cdoms dctcs nocomp 0 (fun h => all_ok h /\ hle h (heap H s)) well); auto.
    - apply run_inv. apply down.
    - split; auto. intros x. auto.
  Qed.
  Lemma exec_down ops s : queue_ok H typ s -> (forall c, List.In c (known H s) -> well c) -> (forall c, List.In (Add c) ops -> well c) ->
    all_ok (heap H s) -> all_ok (heap H (exec ops s)) /\ hle (heap H (exec ops s)) (heap H s).
  Proof.
    intros Q Hg Ha Ho.
    apply (exec_inv H run vol_of typ cdoms dctcs nocomp 0 (fun h => all_ok h /\ hle h (heap H s)) well); auto.
    - apply run_inv. apply down.
    - split; auto. intros x. auto.
  Qed.
  Lemma loop_K n : forall s, K s -> synced s -> alives (heap H (loop n s)) -> K (loop n s).
  Proof.
    induction n as [|n IH]; intros s HK Hi Hn; [auto|].
    destruct (deque H s) as [|c q] eqn:E.
    { assert (El : loop (S n) s = s) by (apply loop_nil; auto). rewrite El. auto. }
    assert (El : loop (S n) s = loop n (step s)) by (apply (loop_S _ _ _ _ _ _ _ _ _ _ c q E)). rewrite El in *.
    pose proof HK as (Q & Ho & Hg & Hw).
    destruct (step_heap H run vol_of typ cdoms dctcs nocomp 0 c q s E) as (Eh & Ek). fold step in Eh, Ek.
    assert (Hc : well c). { apply Hg. destruct Q as (_ & _ & Q3 & Q4 & _). apply Q4, Q3. rewrite E. left; auto. }
    assert (Qs : queue_ok H typ (step s)) by (apply step_ok; auto).
    assert (Os : all_ok (heap H (step s))). { rewrite Eh. destruct Hc as (_ & _ & C3 & _). apply C3; auto. }
    assert (Gs : forall c, List.In c (known H (step s)) -> well c) by (rewrite Ek; auto).
    destruct (loop_down n (step s) Qs Gs Os) as (L1 & L2).
    destruct (step_K s HK Hi (alives_up _ _ L2 L1 Hn)) as (HKs & His). apply IH; auto.
  Qed.
  Lemma same_K s s' : K s -> queue_ok H typ s' -> heap H s' = heap H s -> known H s' = known H s ->
    (forall c, List.In c (known H s) -> List.In c (deque H s) -> settled c (heap H s) \/ List.In c (deque H s')) -> K s'.
  Proof.
    intros (Q & Ho & Hg & Hw) Q' E1 E2 Hd. unfold K. rewrite E1, E2. split; [auto|split; [auto|split; [auto|]]].
    intros c Hc. destruct (Hw c Hc) as [H1|H1]; auto. destruct (Hd c Hc H1); auto.
  Qed.
  Lemma all_queued s c : queue_ok H typ s -> List.In c (known H s) -> is_contracting (typ c) = true ->
    List.In c (deque H (trigger_all H typ s)).
  Proof.
    intros Q Hc Ec.
    assert (Q' := trigger_all_ok H run vol_of typ cdoms dctcs nocomp s Q). destruct Q' as (_ & _ & _ & _ & Q5).
    apply Q5; [|intros Et; rewrite Et in Ec; discriminate]. clear Q5. unfold trigger_all.
    assert (Hd : NoDup (known H s)) by apply Q. revert Hc Hd.
    generalize (mkSt H (heap H s) (active H s) (saved H s) [] (known H s)).
    induction (known H s) as [|x l IH]; intros s1 Hc Hd; [contradiction|]. cbn [fold_left]. inversion Hd; subst.
    destruct Hc as [->|Hc]; [|apply IH; auto]. rewrite Ec.
    match goal with |- context [fold_left ?f l ?s2] => assert (G : forall l' s3, ~ List.In c l' -> active H (fold_left f l' s3) c = active H s3 c) end.
    { induction l' as [|y l' IH']; intros s3 Hn; cbn [fold_left]; auto. cbn in Hn. rewrite IH' by tauto.
      destruct (is_contracting (typ y)); cbn; apply upd_other; intros ->; tauto. }
    rewrite G by auto. cbn. apply upd_same.
  Qed.

  Theorem fixed_point : forall ops m, all_ok m -> (forall c, List.In (Add c) ops -> well c) -> (forall n, ~ List.In (Ordered n) ops) ->
    (forall x, alive (heap H (exec ops (init H m)) x)) -> deque H (exec ops (init H m)) = [] ->
    forall c, List.In c (known H (exec ops (init H m))) -> settled c (heap H (exec ops (init H m))).
  Proof.
    intros ops m Hm Hg Hord Hn Hd.
    enough (HK : K (exec ops (init H m))).
    { intros c Hc. destruct HK as (_ & _ & _ & Hw). destruct (Hw c Hc) as [H1|H1]; auto. rewrite Hd in H1. destruct H1. }
    clear Hd. assert (HK : K (init H m)).
    { split; [apply queue_ok_init|split; [auto|split; [intros c []|intros c []]]]. }
    revert HK Hg Hord Hn. generalize (init H m). clear m Hm.
    induction ops as [|o ops IH]; intros s HK Hg Hord Hn; [exact HK|].
    pose proof HK as (Q & Ho & Hk & Hw).
    set (s1 := CN.apply H run vol_of typ cdoms dctcs nocomp 0 o s).
    change (exec (o :: ops) s) with (exec ops s1) in *.
    assert (Ha : forall c, List.In (Add c) ops -> well c) by (intros c Hc; apply Hg; right; auto).
    assert (Q1 : queue_ok H typ s1) by (apply apply_ok; auto).
    assert (K1 : forall c, List.In c (known H s1) -> well c).
    { intros c Hc. destruct (exec_known H run vol_of typ cdoms dctcs nocomp 0 [o] s c Hc) as [Hc'|[->|[]]]; auto. apply Hg. left; auto. }
    assert (O1 : all_ok (heap H s1)).
    { apply (exec_down [o] s); auto. intros c [->|[]]. apply Hg. left; auto. }
    destruct (exec_down ops s1 Q1 K1 Ha O1) as (L1 & L2).
    assert (A1 : alives (heap H s1)) by (eapply alives_up; eauto).
    apply IH; auto.
    2:{ intros n Hc. apply (Hord n). right; auto. }
    unfold s1 in *. clear s1. destruct o; cbn [CN.apply] in *.
    - unfold K. split; [auto|]. unfold add_ctc in *. destruct (CN.has c (known H s)); [auto|]. cbn. split; [auto|split].
      + intros x [<-|Hx]; auto. apply Hg. left; auto.
      + intros x Hx. rewrite (enqueue_in H run vol_of typ cdoms dctcs nocomp c). destruct Hx as [<-|Hx]; auto. destruct (Hw x Hx); auto.
    - unfold contract in *. apply loop_K; [|intros d; reflexivity|exact A1]. apply (same_K s); auto.
    - exfalso. apply (Hord n). left; auto.
    - destruct (trigger_all_heap H typ s) as (E1 & E2). apply (same_K s); auto. intros c Hc _.
      destruct (Hk c Hc) as (D1 & D2 & _). destruct (is_contracting (typ c)) eqn:Ec; [right; apply all_queued; auto|left].
      apply D2. destruct (typ c); try discriminate; congruence.
    - destruct (trigger_heap H vol_of typ dctcs nocomp 0 d None s) as (E1 & E2). apply (same_K s); auto.
      intros c Hc Hc'. right. destruct Q1 as (_ & _ & _ & _ & Q5). apply Q5; [|apply Hk; auto].
      destruct (trigger1_spec H run vol_of typ cdoms dctcs nocomp 0 d None s Q) as (Q1' & A1' & _).
      destruct (trigger1s_spec H run vol_of typ cdoms dctcs nocomp 0 None (nocomp d) _ Q1') as (_ & A2 & _).
      apply A2, A1'. destruct Q as (_ & _ & Q3 & _). auto.
  Qed.
End Fixed.

(** ** Intervals, tubes and tube vectors *)
(** [c] is a contraction of [d] *)
Definition c_le (c d : content) : Prop :=
  match c, d with DI i, DI j => sub i j | DT x, DT y => below x y | DV v, DV w => Forall2 below v w | _, _ => False end.
(** valid and bounded *)
Definition c_ok (c : content) : Prop :=
  match c with
  | DI i => wf i /\ is_unbounded i = false
  | DT x => (exists a b, tube_ok a b x) /\ Forall s_bounded x
  | DV v => (exists a b, Forall (tube_ok a b) v) /\ Forall (Forall s_bounded) v
  end.
(** no interval, codomain or gate is empty *)
Definition s_alive (s : slice) : Prop := s_cod s <> Emp /\ s_in s <> Emp /\ s_out s <> Emp.
Definition c_alive (c : content) : Prop :=
  match c with DI i => i <> Emp | DT x => Forall s_alive x | DV v => Forall (Forall s_alive) v end.
Notation memory := (nat -> content).
(** calling [c] on [h] changes nothing *)
Definition unmoved (g : dyn_net) (c : nat) (h : memory) : Prop := forall x, dn_run g c h x = h x.
(** what is assumed of a contractor, on valid and bounded domains: it is not a network, it contracts, gives valid domains, is idempotent, depends on
    and changes its own domains only; a link between a vector and its components does nothing *)
Definition c_good (g : dyn_net) (c : nat) : Prop :=
  dn_typ g c <> T_CN /\ (dn_typ g c = T_COMPONENT -> forall h, unmoved g c h) /\
  (forall h, (forall x, c_ok (h x)) ->
     (forall x, c_le (dn_run g c h x) (h x)) /\ (forall x, c_ok (dn_run g c h x)) /\ unmoved g c (dn_run g c h)) /\
  (forall h x, ~ List.In x (dn_doms g c) -> dn_run g c h x = h x) /\
  (forall h k, (forall x, c_ok (h x)) -> (forall x, c_ok (k x)) -> unmoved g c h -> (forall x, List.In x (dn_doms g c) -> k x = h x) -> unmoved g c k).

Lemma below_refl x : below x x.
Proof. induction x as [|s x IH]; constructor; auto. split; [auto|split; [auto|split; [|split]]]; apply sub_refl. Qed.
Lemma below_trans x y z : below x y -> below y z -> below x z.
Proof.
  intros B. revert z. induction B as [|s q x y (A1 & A2 & A3 & A4 & A5) B IH]; intros z C; inversion C as [|? p ? z' (B1 & B2 & B3 & B4 & B5) C']; subst; constructor; [|apply IH; auto].
  split; [congruence|split; [congruence|split; [|split]]]; eapply sub_trans; eauto.
Qed.
Lemma F2_refl {A} (P : A -> A -> Prop) l : (forall x, P x x) -> Forall2 P l l.
Proof. intros Hp. induction l; constructor; auto. Qed.
Lemma F2_trans {A} (P : A -> A -> Prop) : (forall x y z, P x y -> P y z -> P x z) -> forall l m n, Forall2 P l m -> Forall2 P m n -> Forall2 P l n.
Proof. intros Hp l m n B. revert n. induction B; intros n C; inversion C; subst; constructor; eauto. Qed.
Lemma c_le_refl c : c_le c c.
Proof. destruct c; cbn; [apply sub_refl|apply below_refl|apply F2_refl, below_refl]. Qed.
Lemma c_le_trans a b c : c_le a b -> c_le b c -> c_le a c.
Proof. destruct a, b, c; cbn; try tauto; [apply sub_trans|apply below_trans|apply F2_trans; intros x y z; apply below_trans]. Qed.
Lemma emp_up i j : wf i -> sub i j -> i <> Emp -> j <> Emp.
Proof. intros W S N ->. destruct (wf_witness i W N) as (v & Hv). exact (S v Hv). Qed.
Lemma below_alive x y : below x y -> Forall slice_ok x -> Forall s_alive x -> Forall s_alive y.
Proof.
  intros B. induction B as [|s q x y (_ & _ & B1 & B2 & B3) B IH]; intros O A; [constructor|].
  inversion O as [|? ? (W1 & W2 & W3 & _) O']; inversion A as [|? ? (A1 & A2 & A3) A']; subst. constructor; auto.
  split; [apply (emp_up (s_cod s))|split; [apply (emp_up (s_in s))|apply (emp_up (s_out s))]]; auto.
Qed.
Lemma below_chain x y : below x y -> forall a b, chain_from a y b -> chain_from a x b.
Proof. intros B. induction B as [|s q x y (B1 & B2 & _) B IH]; intros a b C; cbn [chain_from] in *; auto. rewrite B1, B2. destruct C as (C1 & C2 & C3). auto. Qed.
Lemma below_ok x y a b a' b' : below x y -> tube_ok a b y -> tube_ok a' b' x -> tube_ok a b x.
Proof. intros B Oy Ox. constructor; [apply (ok_ne _ _ _ Ox)|eapply below_chain; [eauto|apply (ok_chain _ _ _ Oy)]|apply (ok_shared _ _ _ Ox)|apply (ok_slices _ _ _ Ox)]. Qed.
Lemma alive_emptied x y : below x y -> Forall s_alive x -> Forall2 s_emptied x y.
Proof.
  intros B. induction B as [|s q x y _ B IH]; intros A; [constructor|]. inversion A as [|? ? (A1 & A2 & A3) A']; subst. constructor; auto.
  unfold s_emptied, emptied_wide. split; [|split]; intros E; contradiction.
Qed.
Lemma c_le_alive c d : c_le c d -> c_ok c -> c_alive c -> c_alive d.
Proof.
  destruct c as [i|x|v], d as [j|y|w]; cbn; try tauto.
  - intros S (W & _). apply emp_up; auto.
  - intros B ((a & b & O) & _). apply below_alive; auto. apply (ok_slices _ _ _ O).
  - intros B ((a & b & O) & _). revert O. induction B as [|x y v w B1 B IH]; intros O A; [constructor|]. inversion O; inversion A; subst. constructor; auto.
    eapply below_alive; eauto. eapply ok_slices; eauto.
Qed.
Lemma c_strict c d : c_le c d -> c_ok c -> c_ok d -> c_alive c -> c <> d -> shrunk 0 (content_volume c) (content_volume d) = true.
Proof.
  destruct c as [i|x|v], d as [j|y|w]; cbn; try tauto.
  - intros S (Wi & _) (Wj & Bj) A N. apply shrunk_strict; auto. congruence.
  - intros B ((a' & b' & Ox) & _) ((a & b & Oy) & By) A N. apply (C116_tube a b); auto; [eapply below_ok; eauto|apply alive_emptied; auto|congruence].
  - intros B ((a' & b' & Ov) & _) ((a & b & Ow) & Bw) A N. apply (C116_vector a b); auto; [| |congruence].
    + clear N A Bw. revert Ov Ow. induction B as [|x y v w B1 B IH]; intros Ov Ow; [constructor|]. inversion Ov; inversion Ow; subst. constructor; auto. eapply below_ok; eauto.
    + clear N Ov Ow Bw. revert A. induction B as [|x y v w B1 B IH]; intros A; [constructor|]. inversion A; subst. constructor; auto. apply alive_emptied; auto.
Qed.

(** C117: in a network of intervals, tubes and tube vectors with a ratio of 0, whatever the calls made on it, if no domain has become empty and no
    contractor is waiting, then no contractor of the network can contract its domains any further. *)
Theorem C117_fixed_point : forall g ops m,
  (forall c d, List.In d (dn_doms g c) -> List.In c (dn_ctcs g d)) -> (forall x, c_ok (m x)) ->
  (forall c, List.In (Add c) ops -> c_good g c) -> (forall n, ~ List.In (Ordered n) ops) ->
  let s := dyn_exec g 0 ops m in
  (forall x, c_alive (heap memory s x)) -> deque memory s = [] ->
  forall c, List.In c (known memory s) -> unmoved g c (heap memory s).
Proof.
  intros g ops m L O G N s A E.
  exact (fixed_point content content_volume c_le c_ok c_alive c_le_refl c_le_trans c_le_alive c_strict (dn_run g) (dn_typ g) (dn_doms g) (dn_ctcs g) L ops m O G N A E).
Qed.

(** ** Example: a tube [x] restricted to an interval, and an interval [z] that must be a value of [x] at the initial time *)
Definition clip_s (j : itv) (s : slice) : slice := mkS (s_lb s) (s_ub s) (inter (s_cod s) j) (inter (s_in s) j) (inter (s_out s) j).
Definition clip_c (j : itv) (c : content) : content :=
  match c with DI i => DI (inter i j) | DT x => DT (map (clip_s j) x) | DV v => DV (map (map (clip_s j)) v) end.
Definition start (x z : content) : content :=
  match x, z with DT (s :: _), DI i => DI (inter i (s_in s)) | _, _ => z end.
Definition nd_net (j : itv) : dyn_net :=
  mkDyn (fun c h => match c with O => CN.upd h 0%nat (clip_c j (h 0%nat)) | 1%nat => CN.upd h 1%nat (start (h 0%nat) (h 1%nat)) | _ => h end)
    (fun _ => T_CODAC) (fun c => match c with O => [0%nat] | 1%nat => [0%nat; 1%nat] | _ => [] end) (fun d => match d with O => [0%nat; 1%nat] | 1%nat => [1%nat] | _ => [] end).
Definition nd_mem (x : nat) : content := match x with O => DT [mkS 0 1 (I2 0 2) (I2 0 2) (I2 0 2)] | _ => DI (I2 0 2) end.

Lemma inter_twice i j : inter (inter i j) j = inter i j.
Proof. apply inter_sub_eq; [apply wf_inter|apply sub_inter_r]. Qed.
Lemma inter_bounded i j : is_unbounded i = false -> is_unbounded (inter i j) = false.
Proof.
  intros B. assert (S := sub_inter_l i j). assert (W := wf_inter i j). destruct (inter i j) as [|[l|] [h|]]; auto; exfalso;
    destruct i as [|[a|] [b|]]; try discriminate.
  - destruct (S l); cbn; lra.
  - destruct (S (Rmax l b + 1)) as [_ K]; cbn in *; pose proof (Rmax_l l b); pose proof (Rmax_r l b); try split; auto; lra.
  - destruct (S h); cbn; auto; lra.
  - destruct (S (Rmin h a - 1)) as [K _]; cbn in *; pose proof (Rmin_l h a); pose proof (Rmin_r h a); try split; auto; lra.
  - destruct (S 0); cbn; auto.
  - destruct (S (a - 1)) as [K _]; cbn in *; auto; lra.
Qed.
Lemma clip_chain j x : forall a b, chain_from a x b -> chain_from a (map (clip_s j) x) b.
Proof. induction x as [|s x IH]; intros a b C; cbn in *; auto. destruct C as (C1 & C2 & C3). auto. Qed.
Lemma clip_ok j a b x : tube_ok a b x -> tube_ok a b (map (clip_s j) x).
Proof.
  intros O. constructor.
  - intros E. apply map_eq_nil in E. exact (ok_ne _ _ _ O E).
  - apply clip_chain. apply (ok_chain _ _ _ O).
  - assert (G := ok_shared _ _ _ O). clear O. induction x as [|s [|q x] IH]; cbn in *; auto. destruct G as (G1 & G2). split; [congruence|auto].
  - apply Forall_map. eapply Forall_impl; [|apply (ok_slices _ _ _ O)]. intros s (W1 & W2 & W3 & S1 & S2). cbn.
    split; [apply wf_inter|split; [apply wf_inter|split; [apply wf_inter|split]]]; apply sub_inter; try apply sub_inter_r; eapply sub_trans; try apply sub_inter_l; auto.
Qed.
Lemma clip_bounded j x : Forall s_bounded x -> Forall s_bounded (map (clip_s j) x).
Proof. intros B. apply Forall_map. eapply Forall_impl; [|exact B]. intros s (B1 & B2 & B3). split; [|split]; apply inter_bounded; auto. Qed.
Lemma clip_below j x : below (map (clip_s j) x) x.
Proof. induction x as [|s x IH]; constructor; auto. split; [auto|split; [auto|split; [|split]]]; apply sub_inter_l. Qed.
Lemma clip_twice j x : map (clip_s j) (map (clip_s j) x) = map (clip_s j) x.
Proof. rewrite map_map. apply map_ext. intros s. unfold clip_s. cbn. rewrite !inter_twice. reflexivity. Qed.
Lemma clip_c_ok j c : c_ok c -> c_ok (clip_c j c).
Proof.
  destruct c as [i|x|v]; cbn.
  - intros (_ & B). split; [apply wf_inter|apply inter_bounded; auto].
  - intros ((a & b & O) & B). split; [exists a, b; apply clip_ok; auto|apply clip_bounded; auto].
  - intros ((a & b & O) & B). split; [exists a, b|]; apply Forall_map; [apply (Forall_impl _ (clip_ok j a b) O)|apply (Forall_impl _ (clip_bounded j) B)].
Qed.
Lemma clip_c_le j c : c_le (clip_c j c) c.
Proof. destruct c as [i|x|v]; cbn; [apply sub_inter_l|apply clip_below|]. induction v; constructor; auto. apply clip_below. Qed.
Lemma clip_c_twice j c : clip_c j (clip_c j c) = clip_c j c.
Proof. destruct c as [i|x|v]; cbn; f_equal; [apply inter_twice|apply clip_twice|]. rewrite map_map. apply map_ext. apply clip_twice. Qed.
Lemma start_ok x z : c_ok z -> c_ok (start x z).
Proof. destruct x as [|[|s x]|], z; cbn; auto. intros (_ & B). split; [apply wf_inter|apply inter_bounded; auto]. Qed.
Lemma start_le x z : c_le (start x z) z.
Proof. destruct x as [|[|s x]|], z; try apply c_le_refl. cbn. apply sub_inter_l. Qed.
Lemma start_twice x z : start x (start x z) = start x z.
Proof. destruct x as [|[|s x]|], z; cbn; auto. f_equal. apply inter_twice. Qed.

Lemma nd_good j c : c_good (nd_net j) c.
Proof.
  split; [discriminate|]. split; [discriminate|]. split; [|split].
  - intros h O. destruct c as [|[|c]]; (split; [|split]); intros x; cbn [nd_net dn_run]; auto using c_le_refl.
    + destruct (Nat.eq_dec x 0) as [->|N]; [rewrite upd_same; apply clip_c_le|rewrite upd_other by auto; apply c_le_refl].
    + destruct (Nat.eq_dec x 0) as [->|N]; [rewrite upd_same; apply clip_c_ok; auto|rewrite upd_other by auto; auto].
    + destruct (Nat.eq_dec x 0) as [->|N]; [rewrite !upd_same; apply clip_c_twice|rewrite upd_other by auto; auto].
    + destruct (Nat.eq_dec x 1) as [->|N]; [rewrite upd_same; apply start_le|rewrite upd_other by auto; apply c_le_refl].
    + destruct (Nat.eq_dec x 1) as [->|N]; [rewrite upd_same; apply start_ok; auto|rewrite upd_other by auto; auto].
    + destruct (Nat.eq_dec x 1) as [->|N]; [rewrite !upd_same, (upd_other _ 1 _ 0) by auto; apply start_twice|rewrite upd_other by auto; auto].
  - intros h x N. destruct c as [|[|c]]; cbn in *; auto; apply upd_other; intros ->; tauto.
  - intros h k _ _ U E x. destruct c as [|[|c]]; cbn [nd_net dn_run dn_doms] in *; auto.
    + specialize (U x). cbn [nd_net dn_run] in U. destruct (Nat.eq_dec x 0) as [->|N]; [rewrite upd_same in *; rewrite E by (cbn; auto); auto|apply upd_other; auto].
    + specialize (U x). cbn [nd_net dn_run] in U. destruct (Nat.eq_dec x 1) as [->|N]; [rewrite upd_same in *; rewrite !E by (cbn; auto); auto|apply upd_other; auto].
Qed.

(** the calls of a network of two contractors: [1], [0], then [1] again when the contraction of the domain 0 is noticed *)
Section Trace.
  Variable ratio : R.
  Variable g : dyn_net.
  Hypothesis Ht : dn_typ g = fun _ => T_CODAC.
  Hypothesis Hd : dn_doms g = fun c => match c with O => [0%nat] | 1%nat => [0%nat; 1%nat] | _ => [] end.
  Hypothesis Hc : dn_ctcs g = fun d => match d with O => [0%nat; 1%nat] | 1%nat => [1%nat] | _ => [] end.
  Variable m : memory.
  Let V (d : nat) (h : memory) := content_volume (h d).
  Let m1 := dn_run g 1%nat m.
  Let m2 := dn_run g 0%nat m1.
  Let m3 := dn_run g 1%nat m2.
  Hypothesis V1 : shrunk ratio (V 0%nat m1) (V 0%nat m) = false.
  Hypothesis V2 : shrunk ratio (V 1%nat m1) (V 1%nat m) = false.
  Lemma trace_quiet : shrunk ratio (V 0%nat m2) (V 0%nat m1) = false ->
    let s := dyn_exec g ratio [Add 0%nat; Add 1%nat; Contract 3%nat] m in heap memory s = m2 /\ deque memory s = [] /\ known memory s = [1%nat; 0%nat].
  Proof.
    intros V3. unfold dyn_exec, m2, m1, V in *. destruct g as [run typ doms ctcs]. cbn [dn_run dn_typ dn_doms dn_ctcs] in *. subst.
    unfold exec. do 3 (cbn -[shrunk content_volume]; unfold trigger1; cbn -[shrunk content_volume]; rewrite ?V1, ?V2, ?V3). cbn. auto.
  Qed.
  Lemma trace_again : shrunk ratio (V 0%nat m2) (V 0%nat m1) = true -> shrunk ratio (V 0%nat m3) (V 0%nat m2) = false ->
    shrunk ratio (V 1%nat m3) (V 1%nat m1) = true ->
    let s := dyn_exec g ratio [Add 0%nat; Add 1%nat; Contract 3%nat] m in heap memory s = m3 /\ deque memory s = [] /\ known memory s = [1%nat; 0%nat].
  Proof.
    intros V3 V4 V5. unfold dyn_exec, m3, m2, m1, V in *. destruct g as [run typ doms ctcs]. cbn [dn_run dn_typ dn_doms dn_ctcs] in *. subst.
    unfold exec. do 5 (cbn -[shrunk content_volume]; unfold trigger1; cbn -[shrunk content_volume]; rewrite ?V1, ?V2, ?V3, ?V4, ?V5). cbn. auto.
  Qed.
End Trace.

Lemma inter_I2 a b c : a <= c <= b -> inter (I2 a b) (I2 a c) = I2 a c.
Proof. intros L. unfold I2, bnd. rewrite inter_comm. apply inter_sub_eq; cbn; [lra|]. intros v Hv. cbn in *. lra. Qed.
Section Runs.
  Variable u : R.
  Hypothesis Hu : 0 < u <= 2.
  Let g := nd_net (I2 0 u).
  Let m1 := dn_run g 1%nat nd_mem.
  Let m2 := dn_run g 0%nat m1.
  Let m3 := dn_run g 1%nat m2.
  Lemma nd_0 : m1 0%nat = nd_mem 0%nat /\ m1 1%nat = nd_mem 1%nat.
  Proof. split; [reflexivity|]. cbn -[inter I2]. rewrite inter_I2 by lra. reflexivity. Qed.
  Lemma nd_1 : m2 0%nat = DT [mkS 0 1 (I2 0 u) (I2 0 u) (I2 0 u)] /\ m2 1%nat = DI (I2 0 2).
  Proof. unfold m2. cbn -[inter I2]. unfold clip_s. cbn -[inter I2]. rewrite !inter_I2 by lra. auto. Qed.
  Lemma nd_2 : m3 0%nat = DT [mkS 0 1 (I2 0 u) (I2 0 u) (I2 0 u)] /\ m3 1%nat = DI (I2 0 u).
  Proof.
    destruct nd_1 as (E0 & E1). unfold m3. cbn [g nd_net dn_run]. rewrite upd_same, (upd_other _ 1 _ 0) by auto. rewrite E0, E1. split; [auto|]. cbn -[inter I2]. rewrite inter_I2 by lra. auto.
  Qed.
End Runs.
Lemma nd_vol w : content_volume (DT [mkS 0 1 (I2 0 w) (I2 0 w) (I2 0 w)]) = Fin (3 * w) .
Proof. unfold I2, bnd. cbn. f_equal. lra. Qed.
Lemma z_vol w : content_volume (DI (I2 0 w)) = Fin w.
Proof. unfold I2, bnd. cbn. f_equal. lra. Qed.
Lemma nd_linked j c d : List.In d (dn_doms (nd_net j) c) -> List.In c (dn_ctcs (nd_net j) d).
Proof. destruct c as [|[|c]]; cbn; intros Hd; repeat destruct Hd as [<-|Hd]; cbn; auto; contradiction. Qed.
Lemma nd_ok x : c_ok (nd_mem x).
Proof.
  destruct x as [|x]; cbn -[I2].
  - split; [exists 0, 1; tube_ok_tac|]. unfold s_bounded. repeat constructor.
  - unfold I2, bnd. cbn. split; [lra|auto].
Qed.
Lemma sh_again r a b : 0 <= a -> 0 < b -> a < b * (1 - r) -> shrunk r (Fin a) (Fin b) = true.
Proof.
  intros A B L. cbn. rewrite (proj2 (Reqb_false b 0)) by lra. apply Rltb_true. apply (Rmult_lt_reg_r b); auto. replace (a / b * b) with a by (field; lra). lra.
Qed.
Lemma sh_quiet r a b : 0 <= a -> 0 < b -> b * (1 - r) <= a -> shrunk r (Fin a) (Fin b) = false.
Proof.
  intros A B L. cbn. rewrite (proj2 (Reqb_false b 0)) by lra. apply Rltb_false. apply (Rmult_le_reg_r b); auto. replace (a / b * b) with a by (field; lra). lra.
Qed.

Definition nd_ops : list op := [Add 0%nat; Add 1%nat; Contract 3%nat].
(** the hypotheses of the theorem hold for a run where the contractor of [z] is called again after the contraction of [x] *)
Example C117_fixed_point_ex : let g := nd_net (I2 0 1) in let s := dyn_exec g 0 nd_ops nd_mem in
  (forall c d, List.In d (dn_doms g c) -> List.In c (dn_ctcs g d)) /\ (forall x, c_ok (nd_mem x)) /\ (forall c, c_good g c) /\
  (forall x, c_alive (heap memory s x)) /\ deque memory s = [] /\ known memory s = [1%nat; 0%nat] /\
  heap memory s 0%nat = DT [mkS 0 1 (I2 0 1) (I2 0 1) (I2 0 1)] /\ heap memory s 1%nat = DI (I2 0 1) /\
  (forall c, List.In c (known memory s) -> unmoved g c (heap memory s)).
Proof.
  cbn zeta. destruct (nd_0 1) as (A0 & A1). destruct (nd_1 1) as (B0 & B1); [lra|]. destruct (nd_2 1) as (C0 & C1); [lra|].
  assert (T : let s := dyn_exec (nd_net (I2 0 1)) 0 nd_ops nd_mem in
    heap memory s = dn_run (nd_net (I2 0 1)) 1%nat (dn_run (nd_net (I2 0 1)) 0%nat (dn_run (nd_net (I2 0 1)) 1%nat nd_mem)) /\ deque memory s = [] /\ known memory s = [1%nat; 0%nat]).
  { apply trace_again; try reflexivity; rewrite ?A0, ?A1, ?B0, ?B1, ?C0, ?C1; cbn [nd_mem]; rewrite ?nd_vol, ?z_vol; first [apply sh_again; lra|apply sh_quiet; lra]. }
  cbn zeta in T. destruct T as (T1 & T2 & T3).
  assert (Al : forall x, c_alive (heap memory (dyn_exec (nd_net (I2 0 1)) 0 nd_ops nd_mem) x)).
  { intros [|[|x]]; rewrite T1.
    - rewrite C0. unfold I2, s_alive. cbn. constructor; [|constructor]. cbn. split; [|split]; discriminate.
    - rewrite C1. unfold I2. cbn. discriminate.
    - cbn. unfold I2. discriminate. }
  split; [apply nd_linked|]. split; [apply nd_ok|]. split; [apply nd_good|]. split; [exact Al|]. split; [exact T2|]. split; [exact T3|].
  split; [rewrite T1; exact C0|]. split; [rewrite T1; exact C1|].
  apply (C117_fixed_point (nd_net (I2 0 1)) nd_ops nd_mem); auto using nd_linked, nd_ok, nd_good.
  intros n [E|[E|[E|[]]]]; discriminate.
Qed.

(** with the default ratio 0.0001, a contraction of the tube by less than this ratio is not propagated: the network stops although the
    contractor of [z] still has something to remove *)
Theorem C117_default_ratio_refuted : exists g ops m c,
  (forall c d, List.In d (dn_doms g c) -> List.In c (dn_ctcs g d)) /\ (forall x, c_ok (m x)) /\ (forall c, c_good g c) /\ (forall n, ~ List.In (Ordered n) ops) /\
  let s := dyn_exec g (1 / 10000) ops m in
  (forall x, c_alive (heap memory s x)) /\ deque memory s = [] /\ List.In c (known memory s) /\ ~ unmoved g c (heap memory s).
Proof.
  set (u := 2 - 1 / 100000). assert (Hu : 0 < u <= 2) by (unfold u; lra).
  exists (nd_net (I2 0 u)), nd_ops, nd_mem, 1%nat. split; [apply nd_linked|]. split; [apply nd_ok|]. split; [apply nd_good|].
  split; [intros n [E|[E|[E|[]]]]; discriminate|]. cbn zeta.
  destruct (nd_0 u) as (A0 & A1). destruct (nd_1 u Hu) as (B0 & B1). destruct (nd_2 u Hu) as (C0 & C1).
  assert (T : let s := dyn_exec (nd_net (I2 0 u)) (1 / 10000) nd_ops nd_mem in
    heap memory s = dn_run (nd_net (I2 0 u)) 0%nat (dn_run (nd_net (I2 0 u)) 1%nat nd_mem) /\ deque memory s = [] /\ known memory s = [1%nat; 0%nat]).
  { apply trace_quiet; try reflexivity; rewrite ?A0, ?A1, ?B0, ?B1; cbn [nd_mem]; rewrite ?nd_vol, ?z_vol; apply sh_quiet; unfold u; lra. }
  cbn zeta in T. destruct T as (T1 & T2 & T3). rewrite T1, T2, T3. split; [|split; [reflexivity|split; [left; reflexivity|]]].
  - intros [|[|x]].
    + rewrite B0. unfold I2, s_alive. cbn. constructor; [|constructor]. cbn. split; [|split]; discriminate.
    + rewrite B1. unfold I2. cbn. discriminate.
    + cbn. unfold I2. discriminate.
  - intros U. specialize (U 1%nat). rewrite C1, B1 in U. unfold I2 in U. injection U as U. unfold u in U. lra.
Qed.

Print Assumptions C117_fixed_point.
Print Assumptions C117_default_ratio_refuted.
