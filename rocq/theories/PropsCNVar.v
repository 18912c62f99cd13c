(** * Contractor networks with variables, CtcCN: property C105 *)

From Coq Require Import Reals Lra Bool List Arith Lia FunctionalExtensionality.
Import ListNotations.
From Verif Require Import Itv Concrete PropsDyn2 Static PropsStatic CN PropsCN CNVar.
Open Scope R_scope.

(** ** References and memory along a call *)
Section Calls.
  Variable g : vnet.
  Notation own := (own g).
  Notation vstate := vstate.
  Notation hp := (heap vheap).
  Notation vt := (vtyp g).
  Notation ok := (queue_ok vheap (vtyp g)).
  Notation mem_of := (fun s => hm (hp s)).
  Notation ref_of := (fun s => hr (hp s)).

  Lemma vtrigger_same d s : hp (vtrigger g d s) = hp s /\ known _ (vtrigger g d s) = known _ s.
  Proof. apply trigger_heap. Qed.
  Lemma vtrigger_ok d s : ok s -> ok (vtrigger g d s).
  Proof.
    intros Q. exact (apply_ok vheap (vrun g) (vvolume g) vt (v_doms g) (v_ctcs g) (v_comps g) (v_ratio g) (Trigger d) s Q).
  Qed.
  Lemma vtrigger_all_ok s : ok s -> ok (vtrigger_all g s).
  Proof. intros Q. exact (apply_ok vheap (vrun g) (vvolume g) vt (v_doms g) (v_ctcs g) (v_comps g) (v_ratio g) TriggerAll s Q). Qed.

  Lemma replace1_spec d cells s : ok s ->
    let s' := replace1 g d cells s in
    ok s' /\ mem_of s' = mem_of s /\ ref_of s' = upd (ref_of s) d cells /\ known _ s' = known _ s.
  Proof.
    intros Q s'. unfold s', replace1. destruct (vtrigger_same d (set_ref d cells s)) as (E & E').
    rewrite E, E'. refine (conj (vtrigger_ok d _ _) (conj eq_refl (conj eq_refl eq_refl))). exact Q.
  Qed.
  Lemma replaces_spec : forall l s, ok s -> NoDup (map fst l) ->
    let s' := fold_left (fun s p => replace1 g (fst p) [snd p] s) l s in
    ok s' /\ mem_of s' = mem_of s /\ known _ s' = known _ s /\
    (forall p, List.In p l -> ref_of s' (fst p) = [snd p]) /\
    (forall e, ~ List.In e (map fst l) -> ref_of s' e = ref_of s e).
  Proof.
    induction l as [|p l IH]; intros s Q Hd; cbn [fold_left].
    { refine (conj Q (conj eq_refl (conj eq_refl (conj _ _)))); [intros p []|auto]. }
    cbn [map] in Hd. inversion Hd as [|? ? Hn Hd']; subst.
    destruct (replace1_spec (fst p) [snd p] s Q) as (Q1 & M1 & R1 & K1).
    destruct (IH _ Q1 Hd') as (Q2 & M2 & K2 & P2 & O2). cbn zeta. rewrite M2, K2, M1, K1.
    refine (conj Q2 (conj eq_refl (conj eq_refl (conj _ _)))).
    - intros q [->|Hq]; [|apply P2; auto]. rewrite O2, R1 by auto. apply upd_same.
    - intros e He. cbn [map] in He. rewrite O2 by (intros Hc; apply He; right; auto). rewrite R1.
      apply upd_other. intros ->. apply He. left; auto.
  Qed.

  (** a well-formed vector of variables: distinct scalar components *)
  Definition vec_ok (b : nat) : Prop :=
    NoDup (v_comps g b) /\ ~ List.In b (v_comps g b) /\ (forall e, List.In e (v_comps g b) -> v_comps g e = []).

  Lemma own_nodup b : vec_ok b -> NoDup (own b).
  Proof. intros (H & _). unfold CNVar.own. destruct (v_comps g b); auto. repeat constructor. intros []. Qed.
  Lemma own_scalar b e : vec_ok b -> List.In e (own b) -> own e = [e].
  Proof.
    intros (_ & _ & H) He. unfold CNVar.own in *. destruct (v_comps g b) as [|x l] eqn:E.
    - destruct He as [<-|[]]. rewrite E. reflexivity.
    - rewrite (H e He). reflexivity.
  Qed.

  Lemma combine_fst {A B} : forall (l : list A) (l' : list B), length l = length l' -> map fst (combine l l') = l.
  Proof. induction l as [|a l IH]; intros [|b l'] H; try discriminate; cbn; auto. rewrite IH; auto. Qed.
  Lemma combine_snd {A B} : forall (l : list A) (l' : list B), length l = length l' -> map snd (combine l l') = l'.
  Proof. induction l as [|a l IH]; intros [|b l'] H; try discriminate; cbn; auto. rewrite IH; auto. Qed.

  (** after [replace_var b cells]: the vector refers to [cells], its components to each cell *)
  Lemma replace_var_spec b cells s : vec_ok b -> length cells = length (own b) -> ok s ->
    let s' := replace_var g b cells s in
    ok s' /\ mem_of s' = mem_of s /\ known _ s' = known _ s /\
    ref_of s' b = cells /\
    (forall p, List.In p (combine (own b) cells) -> ref_of s' (fst p) = [snd p]) /\
    (forall e, e <> b -> ~ List.In e (own b) -> ref_of s' e = ref_of s e).
  Proof.
    intros (V1 & V2 & V3) Hl Q. unfold replace_var. unfold CNVar.own in *.
    destruct (replace1_spec b cells s Q) as (Q1 & M1 & R1 & K1).
    destruct (v_comps g b) as [|x l] eqn:E.
    - cbn [combine fold_left]. cbn zeta. rewrite M1, R1, K1.
      destruct cells as [|c [|c' cells]]; try discriminate.
      refine (conj Q1 (conj eq_refl (conj eq_refl (conj (upd_same _ _ _) (conj _ _))))).
      + intros p [<-|[]]. cbn. apply upd_same.
      + intros e He _. apply upd_other; auto.
    - rewrite <- E in *. assert (Hf : map fst (combine (v_comps g b) cells) = v_comps g b) by (apply combine_fst; auto).
      destruct (replaces_spec (combine (v_comps g b) cells) _ Q1) as (Q2 & M2 & K2 & P2 & O2); [rewrite Hf; auto|].
      rewrite Hf in O2. cbn zeta. rewrite M2, K2, M1, K1.
      refine (conj Q2 (conj eq_refl (conj eq_refl (conj _ (conj P2 _))))).
      + rewrite O2, R1 by auto. apply upd_same.
      + intros e He Hc. rewrite O2, R1 by auto. apply upd_other; auto.
  Qed.

  (** ** Reset of the intermediate variables *)
  Definition interm_cells : list nat := flat_map (fun p => own (fst p)) (v_interm g).
  Definition reset_mem (l : list (nat * list itv)) (m : mem) : mem :=
    fold_left (fun m p => write_back (own (fst p)) (snd p) m) l m.
  Definition at_rest (s : vstate) : Prop := forall d, ref_of s d = own d.

  Lemma resets_spec : forall l s, ok s -> at_rest s ->
    let s' := fold_left (fun s p => vtrigger g (fst p) (reset_value (fst p) (snd p) s)) l s in
    ok s' /\ at_rest s' /\ known _ s' = known _ s /\ mem_of s' = reset_mem l (mem_of s).
  Proof.
    induction l as [|p l IH]; intros s Q A; cbn [fold_left]; auto.
    set (s1 := reset_value (fst p) (snd p) s).
    destruct (vtrigger_same (fst p) s1) as (E1 & E2).
    destruct (IH (vtrigger g (fst p) s1)) as (Q2 & A2 & K2 & M2).
    - apply vtrigger_ok. exact Q.
    - intros d. rewrite E1. exact (A d).
    - refine (conj Q2 (conj A2 (conj _ _))).
      + rewrite K2, E2. reflexivity.
      + cbn zeta. rewrite M2, E1. unfold s1 at 1. cbn [reset_value heap hm]. rewrite A. reflexivity.
  Qed.
  Lemma reset_interm_spec s : ok s -> at_rest s ->
    let s' := reset_interm_vars g s in
    ok s' /\ at_rest s' /\ known _ s' = known _ s /\ mem_of s' = reset_mem (v_interm g) (mem_of s).
  Proof.
    intros Q A. destruct (resets_spec (v_interm g) s Q A) as (Q1 & A1 & K1 & M1).
    unfold reset_interm_vars. cbn zeta. unfold vtrigger_all.
    destruct (trigger_all_heap vheap vt (fold_left (fun s p => vtrigger g (fst p) (reset_value (fst p) (snd p) s)) (v_interm g) s)) as (E1 & E2).
    refine (conj (vtrigger_all_ok _ Q1) (conj _ (conj _ _))).
    - intros d. rewrite E1. apply A1.
    - rewrite E2. exact K1.
    - rewrite E1. exact M1.
  Qed.
  Lemma reset_mem_other : forall l m x, ~ List.In x (flat_map (fun p => own (fst p)) l) -> reset_mem l m x = m x.
  Proof.
    induction l as [|p l IH]; intros m x Hx; auto. cbn [reset_mem fold_left]. cbn [flat_map] in Hx. rewrite in_app_iff in Hx.
    fold (reset_mem l). rewrite IH by tauto. apply write_back_other. tauto.
  Qed.

  (** ** A whole call *)
  Notation vcontract := (contract vheap (vrun g) (vvolume g) vt (v_doms g) (v_ctcs g) (v_comps g) (v_ratio g)).
  Lemma contract_keeps (P : vheap -> Prop) n s :
    (forall c h, List.In c (known _ s) -> P h -> P (vrun g c h)) -> ok s -> P (hp s) ->
    P (hp (vcontract n s)) /\ ok (vcontract n s) /\ known _ (vcontract n s) = known _ s.
  Proof.
    intros HP Q Hp. unfold contract.
    assert (Q' : ok (save_volumes vheap (vvolume g) s)) by exact Q.
    destruct (loop_inv vheap (vrun g) (vvolume g) vt (v_doms g) (v_ctcs g) (v_comps g) (v_ratio g) P
      (fun c => List.In c (known _ s)) HP n (save_volumes vheap (vvolume g) s) Q') as (H1 & _).
    - intros c Hc. exact Hc.
    - exact Hp.
    - refine (conj H1 (conj _ _)); [apply loop_ok; auto|].
      assert (G : forall n t, known _ (loop vheap (vrun g) (vvolume g) vt (v_doms g) (v_ctcs g) (v_comps g) (v_ratio g) n t) = known _ t).
      { clear. induction n as [|n IH]; intros s; cbn [loop]; auto. destruct (deque _ s) as [|c q] eqn:E; auto. rewrite IH. eapply step_heap; eauto. }
      exact (G n (save_volumes vheap (vvolume g) s)).
  Qed.

  (** [contract({b,xs})], when it returns: the network contracts the cells [xs] and is left at rest *)
  Lemma contract_vars_spec b xs n s s' : vec_ok b -> ok s -> at_rest s -> contract_vars g [(b, xs)] n s = Done s' ->
    length xs = length (own b) /\
    exists s1, ok s1 /\ mem_of s1 = mem_of s /\ known _ s1 = known _ s /\
      ref_of s1 b = xs /\ (forall p, List.In p (combine (own b) xs) -> ref_of s1 (fst p) = [snd p]) /\
      (forall e, e <> b -> ~ List.In e (own b) -> ref_of s1 e = own e) /\
      s1 = replace_var g b xs s /\
      ok s' /\ at_rest s' /\ known _ s' = known _ s /\ mem_of s' = mem_of (vcontract n s1).
  Proof.
    intros V Q A. unfold contract_vars. cbn [forallb fst snd]. unfold fits.
    destruct (Nat.eqb_spec (length xs) (length (own b))) as [Hl|Hl]; [|discriminate]. cbn [andb fold_left fst snd].
    destruct (replace_var_spec b xs s V Hl Q) as (Q1 & M1 & K1 & B1 & P1 & O1).
    destruct (existsb _ _); [discriminate|]. intros E. injection E as <-.
    split; [auto|]. exists (replace_var g b xs s).
    destruct (contract_keeps (fun h => hr h = hr (hp (replace_var g b xs s))) n (replace_var g b xs s)) as (R2 & Q2 & K2); auto.
    set (s2 := vcontract n (replace_var g b xs s)) in *.
    destruct (replace_var_spec b (own b) s2 V eq_refl Q2) as (Q3 & M3 & K3 & B3 & P3 & O3).
    refine (conj Q1 (conj M1 (conj K1 (conj B1 (conj P1 (conj _ (conj eq_refl (conj Q3 (conj _ (conj _ M3)))))))))).
    - intros e He Ho. rewrite O1; auto.
    - intros d. destruct (Nat.eq_dec d b) as [->|Hd]; [exact B3|].
      destruct (in_dec Nat.eq_dec d (own b)) as [Ho|Ho].
      + destruct (In_nth (own b) d 0%nat Ho) as (j & Hj & <-).
        assert (Hp : List.In (nth j (own b) 0%nat, nth j (own b) 0%nat) (combine (own b) (own b))).
        { rewrite <- combine_nth by reflexivity. apply nth_In. rewrite combine_length. lia. }
        apply P3 in Hp. cbn [fst snd] in Hp. rewrite Hp. symmetry. apply (own_scalar b); auto.
      + rewrite O3 by auto. cbn beta. rewrite R2. rewrite O1 by auto. apply A.
    - rewrite K3, K2. exact K1.
  Qed.
End Calls.

(** ** Histories of calls *)
Section Histories.
  Variable g : vnet.
  Notation own := (own g).
  Notation hp := (heap vheap).
  Notation ok := (queue_ok vheap (vtyp g)).
  Notation mem_of := (fun s => hm (hp s)).
  Notation ref_of := (fun s => hr (hp s)).

  Lemma built_spec K m : let s := built g K m in ok s /\ at_rest g s /\ mem_of s = m /\ (forall c, List.In c (known _ s) <-> List.In c K).
  Proof.
    unfold built.
    assert (G : forall K s, ok s -> let s' := fold_left (fun s c => add_ctc vheap (vtyp g) c s) K s in
      ok s' /\ hp s' = hp s /\ (forall c, List.In c (known _ s') <-> List.In c (known _ s) \/ List.In c K)).
    { clear. induction K as [|c K IH]; intros s Q; cbn [fold_left]. { refine (conj Q (conj eq_refl _)). cbn. tauto. }
      destruct (IH (add_ctc vheap (vtyp g) c s)) as (Q1 & E1 & K1).
      { exact (apply_ok vheap (vrun g) (vvolume g) (vtyp g) (v_doms g) (v_ctcs g) (v_comps g) (v_ratio g) (Add c) s Q). }
      rewrite add_heap in E1. refine (conj Q1 (conj E1 _)). intros x. rewrite K1.
      unfold add_ctc. destruct (has c (known _ s)) eqn:E; cbn [known List.In]; [|tauto].
      apply has_spec in E. split; intros H; intuition (subst; auto). }
    destruct (G K _ (queue_ok_init vheap (vtyp g) (mkVH m own))) as (Q & E & H). cbn zeta.
    rewrite E. refine (conj Q (conj _ (conj eq_refl _))).
    - intros d. rewrite E. reflexivity.
    - intros c. rewrite H. cbn. tauto.
  Qed.

  (** the states reached *)
  Definition inv (K : list nat) (s : vstate) : Prop := ok s /\ at_rest g s /\ (forall c, List.In c (known _ s) <-> List.In c K).
  Lemma inv_step b K o s s' : vec_ok g b -> inv K s -> vapply g b o s = Done s' -> inv K s'.
  Proof.
    intros V (Q & A & HK). destruct o as [x i|xs n|xs n|]; cbn [vapply]; intros E.
    - injection E as <-. refine (conj Q (conj A HK)).
    - destruct (reset_interm_spec g s Q A) as (Q1 & A1 & K1 & M1).
      destruct (contract_vars_spec g b xs n _ s' V Q1 A1 E) as (_ & s1 & _ & _ & _ & _ & _ & _ & _ & Q2 & A2 & K2 & _).
      refine (conj Q2 (conj A2 _)). rewrite K2, K1. exact HK.
    - destruct (contract_vars_spec g b xs n _ s' V Q A E) as (_ & s1 & _ & _ & _ & _ & _ & _ & _ & Q2 & A2 & K2 & _).
      refine (conj Q2 (conj A2 _)). rewrite K2. exact HK.
    - injection E as <-. destruct (reset_interm_spec g s Q A) as (Q1 & A1 & K1 & M1).
      refine (conj Q1 (conj A1 _)). rewrite K1. exact HK.
  Qed.
  Lemma inv_exec b K : forall ops s s', vec_ok g b -> inv K s -> vexec g b ops s = Done s' -> inv K s'.
  Proof.
    induction ops as [|o ops IH]; intros s s' V I E; cbn [vexec] in E. { injection E as <-. auto. }
    destruct (vapply g b o s) as [s1|s1] eqn:E1; [|discriminate]. apply (IH s1 s' V); auto. apply (inv_step b K o s s1); auto.
  Qed.
  Lemma inv_reached b K m hist s : vec_ok g b -> vexec g b hist (built g K m) = Done s -> inv K s.
  Proof.
    intros V E. destruct (built_spec K m) as (Q & A & _ & HK). apply (inv_exec b K hist (built g K m) s V); auto. refine (conj Q (conj A HK)).
  Qed.

  (** ** Solutions *)
  (** scalar domains of the contractors *)
  Definition used (K : list nat) : list nat := flat_map (fun c => cells_of (v_ctc g c)) K.
  (** the box of the user shares no memory with the network *)
  Definition apart (K xs : list nat) : Prop :=
    NoDup xs /\ (forall x, List.In x xs -> ~ List.In x (used K) /\ ~ List.In x (interm_cells g)).
  (** the scalar domains of the contractors are intervals, not the vector of variables *)
  Definition scalars (K : list nat) (b : nat) : Prop := forall d, List.In d (used K) -> List.In d (own b) \/ (d <> b /\ v_comps g d = []).
  (** values of the scalar domains: in the initial domains of the intermediate variables, in the current
      values of the other domains of the network, and satisfying the constraints *)
  Definition values_ok (K : list nat) (b : nat) (m : mem) (w : nat -> R) : Prop :=
    (forall c, List.In c K -> satisfies w (v_ctc g c)) /\
    (forall d init, List.In (d, init) (v_interm g) -> Forall2 In (map w (own d)) init) /\
    (forall d, List.In d (used K) -> ~ List.In d (own b) -> ~ List.In d (interm_cells g) -> In (w d) (m d)).

  Definition lookup (l : list (nat * nat)) (w : nat -> R) (x : nat) : R :=
    match find (fun p => Nat.eqb (snd p) x) l with Some p => w (fst p) | None => w x end.
  Lemma find_in (l : list (nat * nat)) p : NoDup (map snd l) -> List.In p l -> find (fun q => Nat.eqb (snd q) (snd p)) l = Some p.
  Proof.
    induction l as [|q l IH]; intros Hd Hp; [contradiction|]. cbn [find map] in *. inversion Hd; subst.
    destruct Hp as [->|Hp]; [rewrite Nat.eqb_refl; auto|].
    destruct (Nat.eqb_spec (snd q) (snd p)) as [E|_]; auto. exfalso. rewrite E in *. apply H1. apply List.in_map; auto.
  Qed.
  Lemma lookup_in l w p : NoDup (map snd l) -> List.In p l -> lookup l w (snd p) = w (fst p).
  Proof. intros Hd Hp. unfold lookup. rewrite (find_in l p); auto. Qed.
  Lemma lookup_out l w x : ~ List.In x (map snd l) -> lookup l w x = w x.
  Proof.
    intros Hx. unfold lookup. destruct (find _ l) as [p|] eqn:E; auto. apply find_some in E. destruct E as [Hp E].
    apply Nat.eqb_eq in E. subst. exfalso. apply Hx, List.in_map; auto.
  Qed.
  Lemma in_combine_l' (l l' : list nat) d : length l = length l' -> List.In d l -> exists x, List.In (d, x) (combine l l').
  Proof.
    revert l'. induction l as [|a l IH]; intros [|b l'] H Hd; try discriminate; [contradiction|].
    destruct Hd as [->|Hd]; [exists b; left; auto|]. destruct (IH l') as (x & Hx); auto. exists x. right; auto.
  Qed.
  Lemma in_combine_r' (l l' : list nat) x : length l = length l' -> List.In x l' -> exists d, List.In (d, x) (combine l l').
  Proof.
    revert l'. induction l as [|a l IH]; intros [|b l'] H Hd; try discriminate; [contradiction|].
    destruct Hd as [->|Hd]; [exists a; left; auto|]. destruct (IH l') as (d & Hx); auto. exists d. right; auto.
  Qed.
  Lemma map_lookup : forall l l' (w : nat -> R), length l = length l' -> NoDup l' -> map (lookup (combine l l') w) l' = map w l.
  Proof.
    intros l l' w H Hd. assert (E1 := combine_fst l l' H). assert (E2 := combine_snd l l' H).
    set (q := combine l l') in *. rewrite <- E1, <- E2 at 1. rewrite !map_map.
    apply map_ext_in. intros p Hp. apply lookup_in; auto. rewrite E2; auto.
  Qed.

  Lemma run_keeps_on (A : nat -> Prop) v c m : satisfies v c -> (forall x, List.In x (cells_of c) -> A x) ->
    (forall x, A x -> In (v x) (m x)) -> forall x, A x -> In (v x) (run_ctc c m x).
  Proof.
    intros Hs HA Hv x Hx. destruct c as [f cells|a b|]; cbn [run_ctc satisfies cells_of] in *; auto.
    - destruct Hs as (P & Hk & HP). revert x Hx. apply (write_back_all (fun x i => A x -> In (v x) i)); auto.
      assert (F : Forall2 In (map v cells) (f (map m cells))).
      { apply Hk; auto. clear - HA Hv. induction cells as [|c l IH]; cbn; constructor; [apply Hv, HA; left; auto|].
        apply IH. intros x Hx. apply HA. right; auto. }
      revert F. generalize (f (map m cells)). clear. induction cells as [|c l IH]; intros b F; inversion F; subst; constructor; auto.
    - assert (Ha : In (v a) (m a)) by (apply Hv, HA; left; auto).
      assert (Hb : In (v b) (m b)) by (apply Hv, HA; right; left; auto).
      unfold upd. destruct (Nat.eqb_spec x b); [|destruct (Nat.eqb_spec x a); auto]; subst; apply In_inter; split; auto;
        try (rewrite Hs; auto; fail); rewrite <- Hs; auto.
  Qed.
  Lemma resolve_sat r w v c : satisfies w c -> (forall d, List.In d (cells_of c) -> v (cell r d) = w d) -> satisfies v (resolve r c).
  Proof.
    intros Hs Hv. destruct c as [f ds|a b|]; cbn [satisfies resolve cells_of] in *; auto.
    - destruct Hs as (P & Hk & HP). exists P. split; auto. rewrite map_map. erewrite map_ext_in; [exact HP|auto].
    - rewrite !Hv; cbn; auto.
  Qed.
  Lemma resolve_cells r c : cells_of (resolve r c) = map (cell r) (cells_of c).
  Proof. destruct c; reflexivity. Qed.

  (** cells referred to by the domains of the contractors *)
  Lemma cell_cases b K xs r d : vec_ok g b -> length xs = length (own b) -> scalars K b -> List.In d (used K) ->
    (forall p, List.In p (combine (own b) xs) -> r (fst p) = [snd p]) ->
    (forall e, e <> b -> ~ List.In e (own b) -> r e = own e) ->
    (exists x, List.In (d, x) (combine (own b) xs) /\ cell r d = x) \/ (~ List.In d (own b) /\ cell r d = d).
  Proof.
    intros V Hl Hs Hd Hp Ho. destruct (in_dec Nat.eq_dec d (own b)) as [Hb|Hb].
    - left. destruct (in_combine_l' (own b) xs d (eq_sym Hl) Hb) as (x & Hx). exists x. split; auto.
      specialize (Hp _ Hx). cbn [fst snd] in Hp. unfold cell. rewrite Hp. reflexivity.
    - right. split; auto. destruct (Hs d Hd) as [Hc|[Hn Hc]]; [contradiction|]. unfold cell. rewrite Ho; auto.
      unfold CNVar.own. rewrite Hc. reflexivity.
  Qed.

  Lemma used_in K c d : List.In c K -> List.In d (cells_of (v_ctc g c)) -> List.In d (used K).
  Proof. intros Hc Hd. unfold used. apply in_flat_map. eauto. Qed.

  Lemma write_back_hit (Q : nat -> itv -> Prop) : forall cells b m x, Forall2 Q cells b -> List.In x cells -> Q x (write_back cells b m x).
  Proof.
    induction cells as [|c cells IH]; intros b m x F Hx; [contradiction|]. inversion F as [|? i ? b' Hi F']; subst. cbn [write_back].
    destruct (in_dec Nat.eq_dec x cells) as [Hc|Hc]; [apply IH; auto|].
    rewrite write_back_other by auto. destruct Hx as [->|Hx]; [|contradiction]. rewrite upd_same. auto.
  Qed.
  Lemma reset_mem_hit (Q : nat -> itv -> Prop) : forall l m, (forall p, List.In p l -> Forall2 Q (own (fst p)) (snd p)) ->
    forall x, List.In x (flat_map (fun p => own (fst p)) l) \/ Q x (m x) -> Q x (reset_mem g l m x).
  Proof.
    induction l as [|p l IH]; intros m Hl x Hx. { destruct Hx as [[]|Hx]; auto. }
    cbn [reset_mem fold_left]. fold (reset_mem g l). apply IH; [intros q Hq; apply Hl; right; auto|].
    cbn [flat_map] in Hx. rewrite in_app_iff in Hx.
    destruct (in_dec Nat.eq_dec x (own (fst p))) as [Ho|Ho].
    - right. apply write_back_hit; auto. apply Hl. left; auto.
    - destruct Hx as [[Hx|Hx]|Hx]; [contradiction|left; auto|]. right. rewrite write_back_other; auto.
  Qed.

  (** no solution is lost by one contraction of the network on the box in the cells [xs] *)
  Lemma contract_vars_keeps b K xs n s s' w : vec_ok g b -> inv K s -> apart K xs -> scalars K b ->
    (forall c, List.In c K -> satisfies w (v_ctc g c)) ->
    (forall d, List.In d (used K) -> ~ List.In d (own b) -> In (w d) (hm (hp s) d)) ->
    Forall2 In (map w (own b)) (map (hm (hp s)) xs) ->
    contract_vars g [(b, xs)] n s = Done s' ->
    Forall2 In (map w (own b)) (map (hm (hp s')) xs).
  Proof.
    intros V (Q & A & HK) (N1 & N2) S W1 W3 Hx E.
    destruct (contract_vars_spec g b xs n s s' V Q A E) as (Hl & s1 & Q1 & M1 & K1 & B1 & P1 & O1 & _ & _ & _ & _ & M2).
    set (r := hr (hp s1)) in *. set (v := lookup (combine (own b) xs) w).
    assert (Hc : forall d, List.In d (used K) -> v (cell r d) = w d /\ (List.In (cell r d) xs \/ (~ List.In d (own b) /\ cell r d = d))).
    { intros d Hd. destruct (cell_cases b K xs r d V Hl S Hd P1 O1) as [(x & Hx1 & ->)|(Hx1 & ->)].
      - split; [|left; apply in_combine_r in Hx1; auto].
        apply (lookup_in _ w (d, x)); auto. rewrite combine_snd; auto.
      - split; auto. apply lookup_out. rewrite combine_snd by auto. intros Hi. destruct (N2 d Hi) as [Hn _]. auto. }
    assert (Hv : map v xs = map w (own b)) by (apply map_lookup; auto).
    set (In_A := fun x => List.In x xs \/ exists d, List.In d (used K) /\ ~ List.In d (own b) /\ cell r d = x /\ x = d).
    assert (G : hr (hp (contract vheap (vrun g) (vvolume g) (vtyp g) (v_doms g) (v_ctcs g) (v_comps g) (v_ratio g) n s1)) = r /\
      forall x, In_A x -> In (v x) (hm (hp (contract vheap (vrun g) (vvolume g) (vtyp g) (v_doms g) (v_ctcs g) (v_comps g) (v_ratio g) n s1)) x)).
    { apply (contract_keeps g (fun h => hr h = r /\ forall x, In_A x -> In (v x) (hm h x)) n s1).
      - intros c h Hk (Hr & Hm). rewrite K1 in Hk. apply HK in Hk. split; [exact Hr|]. unfold vrun. cbn [hm]. rewrite Hr.
        apply run_keeps_on.
        + apply (resolve_sat r w); auto. intros d Hd. apply Hc. apply (used_in K c); auto.
        + intros x. rewrite resolve_cells, in_map_iff. intros (d & <- & Hd). assert (Hu := used_in K c d Hk Hd).
          destruct (Hc d Hu) as (_ & [Hi|(Hi & Ei)]); [left; auto|]. right. exists d. auto.
        + auto.
      - exact Q1.
      - split; [reflexivity|]. cbn beta in M1. intros x [Hi|(d & Hd & Hnd & Ed & ->)].
        + rewrite M1. rewrite <- Hv in Hx. revert Hx Hi. generalize v (hm (hp s)). clear. intros v m Hx Hi. induction xs as [|y l IH]; [contradiction|].
          cbn [map] in Hx. inversion Hx as [|? ? ? ? Hy Hx']; subst. destruct Hi as [<-|Hi]; [exact Hy|exact (IH Hx' Hi)].
        + rewrite M1. destruct (Hc d Hd) as (Ew & _). rewrite Ed in Ew. rewrite Ew. auto. }
    destruct G as (_ & G). cbn beta in M2. rewrite M2, <- Hv.
    assert (G' : forall x, List.In x xs -> In (v x) (hm (hp (contract vheap (vrun g) (vvolume g) (vtyp g) (v_doms g) (v_ctcs g) (v_comps g) (v_ratio g) n s1)) x))
      by (intros x Hi; apply G; left; auto).
    revert G'. generalize v (hm (hp (contract vheap (vrun g) (vvolume g) (vtyp g) (v_doms g) (v_ctcs g) (v_comps g) (v_ratio g) n s1))). clear.
    intros v m G'. induction xs as [|y l IH]; cbn [map]; constructor; [apply G'; left; auto|]. apply IH. intros x Hi. apply G'. right; auto.
  Qed.

  (** C105: whatever was done before with the network (calls of the contractor, contractions, resets,
      changes of the memory), and at whatever moment the contraction is interrupted, [CtcCN::contract(x)]
      keeps each point [w] of the box that can be completed with values of the intermediate variables, in
      their initial domains, so as to satisfy the constraints. *)
  Theorem C105_solutions : forall b K m hist s xs n s' w,
    vec_ok g b -> vexec g b hist (built g K m) = Done s -> apart K xs -> scalars K b ->
    values_ok K b (hm (hp s)) w ->
    Forall2 In (map w (own b)) (map (hm (hp s)) xs) ->
    ctc_cn g b xs n s = Done s' ->
    Forall2 In (map w (own b)) (map (hm (hp s')) xs).
  Proof.
    intros b K m hist s xs n s' w V E Ha S (W1 & W2 & W3) Hx Ec.
    destruct (inv_reached b K m hist s V E) as (Q & A & HK).
    destruct (reset_interm_spec g s Q A) as (Q1 & A1 & K1 & M1).
    assert (I1 : inv K (reset_interm_vars g s)) by (refine (conj Q1 (conj A1 _)); rewrite K1; exact HK).
    assert (N2 := proj2 Ha).
    apply (contract_vars_keeps b K xs n (reset_interm_vars g s) s' w); auto.
    - intros d Hd Hn. cbn beta in M1. rewrite M1.
      apply (reset_mem_hit (fun x i => In (w x) i)).
      + intros [e init] Hp. apply F2_map_l. exact (W2 e init Hp).
      + destruct (in_dec Nat.eq_dec d (interm_cells g)) as [Hi|Hi]; [left; exact Hi|right; apply W3; auto].
    - cbn beta in M1. rewrite M1. rewrite (map_ext_in (reset_mem g (v_interm g) (hm (hp s))) (hm (hp s))); [exact Hx|]. intros x Hi. apply reset_mem_other. apply (N2 x Hi).
  Qed.

  (** C105: the box is only contracted; the other cells are changed only if they are domains of the network
      (in particular the memory of the variables is not), and the network is left as it was: its variables
      refer to their own memory. *)
  Theorem C105_contracts : forall b K m hist s xs n s',
    vec_ok g b -> vexec g b hist (built g K m) = Done s -> apart K xs -> scalars K b ->
    (forall c, List.In c K -> contracting (v_ctc g c)) ->
    ctc_cn g b xs n s = Done s' ->
    (forall x, List.In x xs -> sub (hm (hp s') x) (hm (hp s) x)) /\
    (forall x, ~ List.In x xs -> ~ (List.In x (used K) /\ ~ List.In x (own b)) -> ~ List.In x (interm_cells g) -> hm (hp s') x = hm (hp s) x) /\
    (forall d, hr (hp s') d = own d).
  Proof.
    intros b K m hist s xs n s' V E Ha S C Ec.
    destruct (inv_reached b K m hist s V E) as (Q & A & HK).
    destruct (reset_interm_spec g s Q A) as (Q1 & A1 & K1 & M1). cbn beta in M1.
    destruct (contract_vars_spec g b xs n _ s' V Q1 A1 Ec) as (Hl & s1 & Q2 & M2 & K2 & B2 & P2 & O2 & _ & _ & A3 & _ & M3).
    cbn beta in M2, M3. set (r := hr (hp s1)) in *.
    assert (G : hr (hp (contract vheap (vrun g) (vvolume g) (vtyp g) (v_doms g) (v_ctcs g) (v_comps g) (v_ratio g) n s1)) = r /\
      msub (hm (hp (contract vheap (vrun g) (vvolume g) (vtyp g) (v_doms g) (v_ctcs g) (v_comps g) (v_ratio g) n s1))) (hm (hp s1)) /\
      forall x, ~ List.In x (map (cell r) (used K)) ->
        hm (hp (contract vheap (vrun g) (vvolume g) (vtyp g) (v_doms g) (v_ctcs g) (v_comps g) (v_ratio g) n s1)) x = hm (hp s1) x).
    { apply (contract_keeps g (fun h => hr h = r /\ msub (hm h) (hm (hp s1)) /\ forall x, ~ List.In x (map (cell r) (used K)) -> hm h x = hm (hp s1) x) n s1).
      - intros c h Hk (Hr & Hm & Ho). rewrite K2, K1 in Hk. apply HK in Hk. refine (conj Hr (conj _ _)); unfold vrun; cbn [hm]; rewrite Hr.
        + intros x. apply (sub_trans _ (hm h x)); [|apply Hm]. apply run_contracts. specialize (C c Hk). destruct (v_ctc g c); auto.
        + intros x Hx. rewrite run_other; [apply Ho; auto|]. rewrite resolve_cells. intros Hi. apply Hx.
          apply in_map_iff in Hi. destruct Hi as (d & <- & Hd). apply List.in_map. apply (used_in K c); auto.
      - exact Q2.
      - refine (conj eq_refl (conj _ _)); auto. intros x. apply sub_refl. }
    destruct G as (_ & G1 & G2).
    refine (conj _ (conj _ A3)).
    - intros x Hx. cbn beta. rewrite M3. apply (sub_trans _ (hm (hp s1) x)); [apply G1|].
      rewrite M2, M1, reset_mem_other; [apply sub_refl|]. apply (proj2 Ha x Hx).
    - intros x Hx Hu Hi. rewrite M3, G2.
      + rewrite M2, M1. apply reset_mem_other; auto.
      + rewrite in_map_iff. intros (d & Ed & Hd).
        destruct (cell_cases b K xs r d V Hl S Hd P2 O2) as [(y & Hy & Ey)|(Hy & Ey)].
        * apply Hx. apply in_combine_r in Hy. congruence.
        * apply Hu. split; congruence.
  Qed.

  Lemma contract_vars_returns b xs n s : vec_ok g b -> ok s -> at_rest g s ->
    length xs = length (own b) -> (0 < length xs)%nat -> (forall x, List.In x xs -> ~ List.In x (own b)) ->
    (forall d, List.In d (v_vars g) -> d = b \/ List.In d (own b)) ->
    exists s', contract_vars g [(b, xs)] n s = Done s'.
  Proof.
    intros V Q A Hl Hp Hx Hv.
    unfold contract_vars. cbn [forallb fst snd fold_left]. unfold fits. rewrite (proj2 (Nat.eqb_eq _ _) Hl). cbn [andb].
    destruct (replace_var_spec g b xs _ V Hl Q) as (Q2 & M2 & K2 & B2 & P2 & O2).
    set (s1 := replace_var g b xs s) in *.
    replace (existsb (not_associated g (hr (hp s1))) (v_vars g)) with false; [eexists; reflexivity|].
    symmetry. apply not_true_iff_false. rewrite existsb_exists. intros (d & Hd & Hn). unfold not_associated in Hn.
    destruct (list_eq_dec _ _ _) as [En|_]; [|discriminate].
    assert (Hd' : d = b \/ (d <> b /\ List.In d (own b))).
    { destruct (Nat.eq_dec d b); [auto|]. destruct (Hv d Hd); auto. }
    destruct Hd' as [->|(Hnb & Ho)].
    - rewrite B2 in En. destruct xs as [|x xs]; [cbn in Hp; lia|]. apply (Hx x); [left; auto|]. rewrite <- En. left; auto.
    - destruct (in_combine_l' (own b) xs d (eq_sym Hl) Ho) as (x & Hi). specialize (P2 _ Hi). cbn [snd fst] in P2. rewrite P2 in En.
      rewrite (own_scalar g b d V Ho) in En. injection En as ->. apply (Hx d); auto. apply in_combine_r in Hi. auto.
  Qed.
  (** C105: the call returns when the variables of the network are the box and its components. *)
  Theorem C105_returns : forall b K m hist s xs n,
    vec_ok g b -> vexec g b hist (built g K m) = Done s ->
    length xs = length (own b) -> (0 < length xs)%nat -> (forall x, List.In x xs -> ~ List.In x (own b)) ->
    (forall d, List.In d (v_vars g) -> d = b \/ List.In d (own b)) ->
    exists s', ctc_cn g b xs n s = Done s'.
  Proof.
    intros b K m hist s xs n V E Hl Hp Hx Hv.
    destruct (inv_reached b K m hist s V E) as (Q & A & HK).
    destruct (reset_interm_spec g s Q A) as (Q1 & A1 & K1 & M1).
    apply contract_vars_returns; auto.
  Qed.
End Histories.

(** ** Two runs of a network *)
Section Sim.
  Variable H : Type.
  Variable run : nat -> H -> H.
  Variable volume : nat -> H -> vol.
  Variable typ : nat -> ctype.
  Variable cdoms dctcs dcomps : nat -> list nat.
  Variable ratio : R.
  Hypothesis no_cn : forall c, typ c <> T_CN.
  Variable Rh : H -> H -> Prop.
  Variable K : nat -> Prop.
  Variable D : nat -> Prop.
  Hypothesis run_rel : forall c h h', K c -> Rh h h' -> Rh (run c h) (run c h').
  Hypothesis vol_rel : forall d h h', D d -> Rh h h' -> volume d h = volume d h'.
  Hypothesis doms_rel : forall c d, K c -> List.In d (touched cdoms dcomps c) -> D d.
  Notation ok := (queue_ok H typ).

  (** same queue: same active contractors *)
  Lemma active_deque s s' : ok s -> ok s' -> deque H s = deque H s' -> active H s = active H s'.
  Proof.
    intros (_ & _ & A1 & _ & B1) (_ & _ & A2 & _ & B2) E. apply functional_extensionality. intros c.
    destruct (active H s c) eqn:E1, (active H s' c) eqn:E2; auto.
    - apply B1 in E1; auto. rewrite E in E1. apply A2 in E1. congruence.
    - apply B2 in E2; auto. rewrite <- E in E2. apply A1 in E2. congruence.
  Qed.
  Definition same_queue (s s' : state H) : Prop := ok s /\ ok s' /\ deque H s = deque H s' /\ known H s = known H s'.
  Lemma trigger1_same d a s s' : same_queue s s' -> volume d (heap H s) = volume d (heap H s') -> saved H s d = saved H s' d ->
    same_queue (trigger1 H volume typ dctcs ratio d a s) (trigger1 H volume typ dctcs ratio d a s').
  Proof.
    intros (Q & Q' & E & Ek) Ev Es.
    assert (G := trigger1_spec H run volume typ cdoms dctcs dcomps ratio d a s Q).
    assert (G' := trigger1_spec H run volume typ cdoms dctcs dcomps ratio d a s' Q').
    refine (conj (proj1 G) (conj (proj1 G') _)). clear G G'.
    unfold trigger1. rewrite <- Ev, <- Es, <- Ek, <- (active_deque s s' Q Q' E), <- E.
    destruct (shrunk _ _ _); [destruct (activate _ _ _ _)|]; cbn; auto.
  Qed.
  Definition sim (s s' : state H) : Prop :=
    same_queue s s' /\ Rh (heap H s) (heap H s') /\ (forall d, D d -> saved H s d = saved H s' d).
  Lemma trigger1_sim d a s s' : D d -> sim s s' -> sim (trigger1 H volume typ dctcs ratio d a s) (trigger1 H volume typ dctcs ratio d a s').
  Proof.
    intros Hd (Sq & Hr & Hs). assert (Ev := vol_rel d _ _ Hd Hr).
    refine (conj (trigger1_same d a s s' Sq Ev (Hs d Hd)) _).
    destruct Sq as (Q & Q' & _).
    destruct (trigger1_heap H volume typ dctcs ratio d a s) as (-> & _).
    destruct (trigger1_heap H volume typ dctcs ratio d a s') as (-> & _).
    split; auto. intros e He.
    destruct (trigger1_spec H run volume typ cdoms dctcs dcomps ratio d a s Q) as (_ & _ & _ & S1 & S2).
    destruct (trigger1_spec H run volume typ cdoms dctcs dcomps ratio d a s' Q') as (_ & _ & _ & S1' & S2').
    destruct (Nat.eq_dec e d) as [->|Hn]; [congruence|]. rewrite S2, S2'; auto.
  Qed.
  Lemma trigger1s_sim a : forall l s s', (forall d, List.In d l -> D d) -> sim s s' ->
    sim (fold_left (fun s i => trigger1 H volume typ dctcs ratio i a s) l s) (fold_left (fun s i => trigger1 H volume typ dctcs ratio i a s) l s').
  Proof.
    induction l as [|d l IH]; intros s s' Hl Hs; cbn [fold_left]; auto.
    apply IH; [intros e He; apply Hl; right; auto|]. apply trigger1_sim; auto. apply Hl. left; auto.
  Qed.
  Lemma step_sim s s' : (forall c, List.In c (known H s) -> K c) -> sim s s' ->
    sim (step H run volume typ cdoms dctcs dcomps ratio s) (step H run volume typ cdoms dctcs dcomps ratio s').
  Proof.
    intros Hk Hs. destruct (deque H s) as [|c q] eqn:E.
    - destruct Hs as ((Q & Q' & Ed & Ek) & Hr). unfold step. rewrite <- Ed, E. refine (conj (conj Q (conj Q' (conj Ed Ek))) Hr).
    - assert (E' : deque H s' = c :: q) by (destruct Hs as ((_ & _ & Ed & _) & _); congruence).
      rewrite (step_eq _ _ _ _ _ _ _ _ c q s E), (step_eq _ _ _ _ _ _ _ _ c q s' E').
      assert (Kc : K c).
      { apply Hk. destruct Hs as ((Q & _) & _). destruct Q as (_ & _ & Q3 & Q4 & _). apply Q4, Q3. rewrite E. left; auto. }
      apply trigger1s_sim; [intros d Hd; apply (doms_rel c); auto|].
      destruct Hs as ((Q & Q' & Ed & Ek) & Hr & Hs). split; [|split; [apply run_rel; auto|auto]].
      refine (conj (called_ok _ _ _ c q s E Q) (conj (called_ok _ _ _ c q s' E' Q') (conj eq_refl Ek))).
  Qed.
  Lemma loop_sim n : forall s s', (forall c, List.In c (known H s) -> K c) -> sim s s' ->
    sim (loop H run volume typ cdoms dctcs dcomps ratio n s) (loop H run volume typ cdoms dctcs dcomps ratio n s').
  Proof.
    induction n as [|n IH]; intros s s' Hk Hs; cbn [loop]; auto.
    assert (Ed : deque H s = deque H s') by (destruct Hs as ((_ & _ & Ed & _) & _); auto). rewrite <- Ed.
    destruct (deque H s) as [|c q] eqn:E; auto. apply IH; [|apply step_sim; auto].
    intros x Hx. apply Hk. destruct (step_heap H run volume typ cdoms dctcs dcomps ratio c q s E) as (_ & Ek). rewrite <- Ek. exact Hx.
  Qed.
  (** a trigger whose contractors are all active changes the saved volume only *)
  Lemma activate_idle a : forall l act local, (forall c, List.In c l -> act c = true \/ a = Some c) -> activate typ l a act local = (act, local).
  Proof.
    induction l as [|c l IH]; intros act local Hl; cbn [activate]; auto.
    assert (E : negb (match a with Some a => Nat.eqb c a | None => false end) && negb (act c) = false).
    { destruct (Hl c (or_introl eq_refl)) as [-> | ->]; [apply andb_false_r|]. rewrite Nat.eqb_refl. reflexivity. }
    rewrite E. apply IH. intros x Hx. apply Hl. right; auto.
  Qed.
  Lemma trigger1_idle d a s : (forall c, List.In c (dctcs d) -> List.In c (known H s) -> active H s c = true \/ a = Some c) ->
    deque H (trigger1 H volume typ dctcs ratio d a s) = deque H s /\ active H (trigger1 H volume typ dctcs ratio d a s) = active H s.
  Proof.
    intros Hc. unfold trigger1. destruct (shrunk _ _ _); [|auto].
    rewrite activate_idle; [auto|]. intros c Hi. apply filter_In in Hi. destruct Hi as (Hi & Hk). apply Hc; auto. apply has_spec; auto.
  Qed.
End Sim.

Lemma trigger_all_queue H typ s s' : known H s = known H s' ->
  deque H (trigger_all H typ s) = deque H (trigger_all H typ s').
Proof.
  intros Ek. unfold trigger_all. rewrite <- Ek.
  match goal with |- deque H (fold_left ?f _ _) = _ => set (F := f) end.
  assert (G : forall l t t', deque H t = deque H t' -> deque H (fold_left F l t) = deque H (fold_left F l t')).
  { induction l as [|c l IH]; intros t t' E; cbn [fold_left]; auto. apply IH. unfold F. destruct (is_contracting _); cbn; rewrite ?E; auto. }
  apply G. reflexivity.
Qed.
Lemma trigger_all_active H typ s c : List.In c (known H s) -> is_contracting (typ c) = true -> active H (trigger_all H typ s) c = true.
Proof.
  intros Hc Ht. unfold trigger_all.
  match goal with |- active H (fold_left ?f _ _) _ = _ => set (F := f) end.
  assert (G : forall l t, List.In c l \/ active H t c = true -> active H (fold_left F l t) c = true).
  { induction l as [|x l IH]; intros t [Hx|Hx]; cbn [fold_left]; auto; try contradiction; apply IH.
    - destruct (Nat.eq_dec x c) as [->|Hn]; [right|destruct Hx as [Hx|Hx]; [congruence|auto]].
      unfold F. rewrite Ht. cbn. apply upd_same.
    - right. unfold F. destruct (Nat.eq_dec x c) as [->|Hn].
      + rewrite Ht. cbn. apply upd_same.
      + destruct (is_contracting (typ x)); cbn [active]; rewrite upd_other; auto. }
  apply G. auto.
Qed.

(** ** The result depends on the box only *)
Section Stateless.
  Variable g : vnet.
  Notation own := (own g).
  Notation hp := (heap vheap).
  Notation ok := (queue_ok vheap (vtyp g)).
  Notation mem_of := (fun s => hm (hp s)).
  Notation ref_of := (fun s => hr (hp s)).

  (** closed network: the domains of the contractors are the box, its components and intermediate variables *)
  Definition closed (K : list nat) (b : nat) : Prop :=
    (forall d, List.In d (used g K) -> List.In d (own b) \/ (d <> b /\ v_comps g d = [] /\ List.In d (interm_cells g))) /\
    (forall c d, List.In c K -> List.In d (touched (v_doms g) (v_comps g) c) ->
       d = b \/ List.In d (own b) \/ (forall e, List.In e (own d) -> List.In e (interm_cells g))).
  (** the links between the vector and its components: each is a contractor of the vector,
      codac_ContractorNetwork.cpp 480-482 *)
  Definition linked (b : nat) : Prop :=
    forall e c, List.In e (v_comps g b) -> List.In c (v_ctcs g e) -> v_ctc g c = Component -> List.In c (v_ctcs g b).
  Definition interm_ok : Prop := forall p, List.In p (v_interm g) -> length (snd p) = length (own (fst p)).

  Lemma vtyp_cases c : v_ctc g c = Component \/ is_contracting (vtyp g c) = true.
  Proof. unfold vtyp. destruct (v_ctc g c); auto. Qed.
  Lemma vtyp_no_cn c : vtyp g c <> T_CN.
  Proof. unfold vtyp. destruct (v_ctc g c); discriminate. Qed.

  (** *** replacement of the variables when the contracting contractors are already in the queue *)
  Definition busy (d : nat) (s : vstate) : Prop := forall c, List.In c (v_ctcs g d) -> List.In c (known _ s) -> active _ s c = true.
  Lemma busy_ext d (s s' : vstate) : known _ s' = known _ s -> active _ s' = active _ s -> busy d s -> busy d s'.
  Proof. intros E1 E2 B c. rewrite E1, E2. apply B. Qed.
  Notation trig1 := (trigger1 vheap (vvolume g) (vtyp g) (v_ctcs g) (v_ratio g)).
  Lemma trig1_known d a s : known _ (trig1 d a s) = known _ s.
  Proof. apply trigger1_heap. Qed.
  Lemma trig1s_idle a l : forall s, (forall d, List.In d l -> busy d s) ->
    deque _ (fold_left (fun s i => trig1 i a s) l s) = deque _ s /\ active _ (fold_left (fun s i => trig1 i a s) l s) = active _ s.
  Proof.
    induction l as [|d l IH]; intros s Hl; cbn [fold_left]; auto.
    destruct (trigger1_idle vheap (vvolume g) (vtyp g) (v_ctcs g) (v_ratio g) d a s) as (E1 & E2); [intros c Hc Hk; left; apply (Hl d); auto; left; auto|].
    destruct (IH (trig1 d a s)) as (E3 & E4).
    - intros e He. apply (busy_ext e s); auto; [apply trig1_known|]. apply Hl. right; auto.
    - rewrite E3, E4. auto.
  Qed.
  Lemma replace1s_idle : forall l s, (forall p, List.In p l -> busy (fst p) s /\ v_comps g (fst p) = []) ->
    deque _ (fold_left (fun s p => replace1 g (fst p) [snd p] s) l s) = deque _ s /\ active _ (fold_left (fun s p => replace1 g (fst p) [snd p] s) l s) = active _ s.
  Proof.
    induction l as [|p l IH]; intros s Hl; cbn [fold_left]; auto.
    destruct (Hl p (or_introl eq_refl)) as (B & C).
    set (s1 := replace1 g (fst p) [snd p] s).
    assert (E : deque _ s1 = deque _ s /\ active _ s1 = active _ s).
    { unfold s1, replace1, vtrigger, trigger. rewrite C. cbn [fold_left].
      apply (trigger1_idle vheap (vvolume g) (vtyp g) (v_ctcs g) (v_ratio g) (fst p) None (set_ref (fst p) [snd p] s)). intros c Hc Hk. left. apply B; auto. }
    assert (Ek : known _ s1 = known _ s) by (apply (vtrigger_same g (fst p) (set_ref (fst p) [snd p] s))).
    destruct (IH s1) as (E3 & E4).
    - intros q Hq. destruct (Hl q (or_intror Hq)) as (B' & C'). split; auto. apply (busy_ext _ s); auto; apply E.
    - rewrite E3, E4. exact E.
  Qed.

  Lemma box_volume_pos l : Forall wf l -> match box_volume l with Fin v => 0 <= v | Inf => True end.
  Proof.
    intros W. unfold box_volume. destruct (b_is_empty l) eqn:E1; [lra|]. destruct (existsb _ _) eqn:E2; auto. clear E1.
    induction W as [|i l Wi W IH]; cbn [fold_right existsb] in *; [lra|]. apply orb_false_iff in E2. destruct E2 as (_ & E2).
    apply Rmult_le_pos; [|apply IH; auto]. destruct i as [|[u|] [v|]]; cbn in *; lra.
  Qed.
  Lemma shrunk_fresh r v : r < 1 -> match v with Fin v => 0 <= v | Inf => True end -> shrunk r v (Fin (-1)) = true.
  Proof.
    intros Hr Hv. unfold shrunk. destruct v as [v|].
    - rewrite (proj2 (Reqb_false (-1) 0)) by lra. apply Rltb_true. unfold Rdiv. replace (/ -1) with (-1) by lra. lra.
    - rewrite (proj2 (Rltb_true (-1) 0)) by lra. reflexivity.
  Qed.

  (** after the reset and the replacement of the variables, the queue depends on the graph and on the box only *)
  Lemma prepared_queue b xs xs' s s' : vec_ok g b -> linked b -> v_ratio g < 1 ->
    ok s -> ok s' -> at_rest g s -> at_rest g s' -> known _ s = known _ s' ->
    (forall x, List.In x xs -> ~ List.In x (interm_cells g)) -> (forall x, List.In x xs' -> ~ List.In x (interm_cells g)) ->
    length xs = length (own b) -> length xs' = length (own b) ->
    Forall wf (map (mem_of s) xs) -> map (mem_of s) xs = map (mem_of s') xs' ->
    deque _ (replace_var g b xs (reset_interm_vars g s)) = deque _ (replace_var g b xs' (reset_interm_vars g s')).
  Proof.
    intros V L Hr Q Q' A A' Ek N N' Hl Hl' W Em.
    destruct (reset_interm_spec g s Q A) as (Q1 & A1 & K1 & M1).
    destruct (reset_interm_spec g s' Q' A') as (Q1' & A1' & K1' & M1'). cbn beta in M1, M1', Em, W.
    set (t := reset_interm_vars g s) in *. set (t' := reset_interm_vars g s') in *.
    assert (Ed : deque _ t = deque _ t').
    { unfold t, t', reset_interm_vars, vtrigger_all. apply trigger_all_queue.
      rewrite (proj1 (proj2 (proj2 (resets_spec g (v_interm g) s Q A)))).
      rewrite (proj1 (proj2 (proj2 (resets_spec g (v_interm g) s' Q' A')))). exact Ek. }
    assert (Act : forall c, List.In c (known _ s) -> is_contracting (vtyp g c) = true -> active _ t c = true).
    { intros c Hc Ht. unfold t, reset_interm_vars, vtrigger_all. apply trigger_all_active; auto.
      rewrite (proj1 (proj2 (proj2 (resets_spec g (v_interm g) s Q A)))). exact Hc. }
    assert (Ex : map (hm (hp t)) xs = map (hm (hp s)) xs).
    { rewrite M1. apply map_ext_in. intros x Hx. apply reset_mem_other. apply (N x Hx). }
    assert (Ex' : map (hm (hp t')) xs' = map (hm (hp s')) xs').
    { rewrite M1'. apply map_ext_in. intros x Hx. apply reset_mem_other. apply (N' x Hx). }
    (* the first trigger *)
    assert (Vol : vvolume g b (hp (set_ref b xs t)) = vvolume g b (hp (set_ref b xs' t'))).
    { unfold vvolume, set_ref. cbn [heap hm hr]. unfold cell. rewrite !upd_same.
      destruct (v_comps g b) as [|x l] eqn:Ec.
      - unfold CNVar.own in Hl, Hl'. rewrite Ec in Hl, Hl'. destruct xs as [|x [|? ?]]; try discriminate. destruct xs' as [|x' [|? ?]]; try discriminate.
        cbn [hd]. cbn [map] in Ex, Ex', Em. congruence.
      - congruence. }
    assert (Sq : same_queue vheap (vtyp g) (trig1 b None (set_ref b xs t)) (trig1 b None (set_ref b xs' t'))).
    { apply (trigger1_same vheap (vrun g) (vvolume g) (vtyp g) (v_doms g) (v_ctcs g) (v_comps g) (v_ratio g) vtyp_no_cn).
      - refine (conj Q1 (conj Q1' (conj Ed _))). cbn. congruence.
      - exact Vol.
      - cbn [saved set_ref]. rewrite !upd_same. reflexivity. }
    destruct (v_comps g b) as [|x0 l0] eqn:Ec.
    { unfold replace_var, replace1, vtrigger, trigger. rewrite Ec. cbn [combine fold_left]. apply Sq. }
    (* the links are active: nothing else is activated *)
    assert (Busy : forall u ys, ok u -> length ys = length (own b) -> Forall wf (map (hm (hp u)) ys) ->
      (forall c, List.In c (known _ u) -> is_contracting (vtyp g c) = true -> active _ u c = true) ->
      deque _ (replace_var g b ys u) = deque _ (trig1 b None (set_ref b ys u))).
    { clear - V L Hr Ec. intros u ys Qu Hl Wu Au.
      set (u0 := set_ref b ys u). set (u1 := trig1 b None u0).
      destruct (trigger1_spec vheap (vrun g) (vvolume g) (vtyp g) (v_doms g) (v_ctcs g) (v_comps g) (v_ratio g) b None u0 Qu) as (_ & A1 & B1 & _).
      fold u1 in A1, B1.
      assert (Sh : shrunk (v_ratio g) (vvolume g b (hp u0)) (saved _ u0 b) = true).
      { unfold u0. cbn [saved set_ref]. rewrite upd_same. apply shrunk_fresh; auto. unfold vvolume. rewrite Ec. cbn [heap hm hr set_ref].
        rewrite upd_same. apply box_volume_pos. exact Wu. }
      assert (Ku : known _ u1 = known _ u) by exact (trig1_known b None u0).
      assert (Bu : forall e, List.In e (v_comps g b) -> busy e u1).
      { intros e He c Hc Hk. rewrite Ku in Hk. destruct (vtyp_cases c) as [Hcc|Hcc].
        - apply (B1 Sh); auto; [|discriminate]. apply (L e c); auto.
        - apply A1. apply (Au c); auto. }
      assert (E2 := trig1s_idle None (v_comps g b) u1 Bu).
      unfold replace_var. unfold replace1 at 2. unfold vtrigger, trigger. fold u0. fold u1.
      set (u2 := fold_left (fun s i => trig1 i None s) (v_comps g b) u1) in *.
      assert (K2 : known _ u2 = known _ u1) by (apply (trigger1s_heap vheap (vvolume g) (vtyp g) (v_ctcs g) (v_ratio g) None (v_comps g b) u1)).
      destruct (replace1s_idle (combine (v_comps g b) ys) u2) as (E3 & _).
      - intros [e y] Hp. cbn [fst]. apply in_combine_l in Hp. split; [|apply V; auto].
        apply (busy_ext e u1); [exact K2|apply E2|auto].
      - rewrite E3. apply E2. }
    rewrite (Busy t xs), (Busy t' xs'); auto.
    - apply Sq.
    - rewrite Ex', <- Em. exact W.
    - intros c Hc Ht. rewrite <- (active_deque vheap (vtyp g) vtyp_no_cn t t' Q1 Q1' Ed). apply Act; auto. rewrite Ek. rewrite <- K1'. exact Hc.
    - rewrite Ex. exact W.
    - intros c Hc Ht. apply Act; auto. rewrite <- K1. exact Hc.
  Qed.

  (** *** correspondence of the memories of two calls *)
  Definition ren (xs xs' : list nat) (x : nat) : nat :=
    match find (fun p => Nat.eqb (snd p) x) (combine xs' xs) with Some p => fst p | None => x end.
  Lemma ren_in xs xs' p : NoDup xs -> length xs' = length xs -> List.In p (combine xs' xs) -> ren xs xs' (snd p) = fst p.
  Proof. intros Hd Hl Hp. unfold ren. rewrite (find_in (combine xs' xs) p); auto. rewrite combine_snd; auto. Qed.
  Lemma ren_out xs xs' x : length xs' = length xs -> ~ List.In x xs -> ren xs xs' x = x.
  Proof.
    intros Hl Hx. unfold ren. destruct (find _ _) as [p|] eqn:E; auto. apply find_some in E. destruct E as [Hp E].
    apply Nat.eqb_eq in E. subst. exfalso. apply Hx. destruct p. apply in_combine_r in Hp. exact Hp.
  Qed.
  Lemma ren_map xs xs' : NoDup xs -> length xs' = length xs -> map (ren xs xs') xs = xs'.
  Proof.
    intros Hd Hl. assert (E1 := combine_fst xs' xs Hl). assert (E2 := combine_snd xs' xs Hl).
    transitivity (map (ren xs xs') (map snd (combine xs' xs))); [rewrite E2; auto|].
    transitivity (map fst (combine xs' xs)); [|auto]. rewrite map_map. apply map_ext_in. intros p Hp. apply ren_in; auto.
  Qed.
  Lemma pair_inj : forall (l l' : list nat) a x y, NoDup l -> List.In (a, x) (combine l l') -> List.In (a, y) (combine l l') -> x = y.
  Proof.
    induction l as [|c l IH]; intros [|c' l'] a x y Hd Hx Hy; try contradiction. inversion Hd as [|? ? Hn Hd']; subst.
    cbn [combine] in *. destruct Hx as [Hx|Hx], Hy as [Hy|Hy].
    - congruence.
    - injection Hx as -> ->. apply in_combine_l in Hy. contradiction.
    - injection Hy as -> ->. apply in_combine_l in Hx. contradiction.
    - eapply IH; eauto.
  Qed.
  Lemma ren_inj xs xs' (I : list nat) x y : NoDup xs -> NoDup xs' -> length xs' = length xs ->
    (forall z, List.In z xs' -> ~ List.In z I) -> List.In x xs \/ List.In x I -> List.In y xs \/ List.In y I ->
    ren xs xs' x = ren xs xs' y -> x = y.
  Proof.
    intros Hd Hd' Hl Hn Hx Hy E.
    assert (C : forall z, List.In z xs \/ List.In z I -> (exists a, List.In (a, z) (combine xs' xs) /\ ren xs xs' z = a) \/ (List.In z I /\ ren xs xs' z = z)).
    { intros z Hz. destruct (in_dec Nat.eq_dec z xs) as [Hi|Hi].
      - left. destruct (in_combine_r' xs' xs z Hl Hi) as (a & Ha). exists a. split; auto. apply (ren_in xs xs' (a, z)); auto.
      - right. split; [tauto|apply ren_out; auto]. }
    destruct (C x Hx) as [(a & Ha & Ea)|(Ha & Ea)], (C y Hy) as [(a' & Ha' & Ea')|(Ha' & Ea')].
    - assert (Ea2 : a' = a) by congruence. rewrite Ea2 in Ha'. apply (pair_inj xs' xs a x y Hd' Ha Ha').
    - exfalso. apply (Hn a); [apply in_combine_l in Ha; auto|]. congruence.
    - exfalso. apply (Hn a'); [apply in_combine_l in Ha'; auto|]. congruence.
    - congruence.
  Qed.

  Lemma write_back_ren (f : nat -> nat) (A : nat -> Prop) : (forall x y, A x -> A y -> f x = f y -> x = y) ->
    forall cells b m m', (forall c, List.In c cells -> A c) -> (forall x, A x -> m' (f x) = m x) ->
    forall x, A x -> write_back (map f cells) b m' (f x) = write_back cells b m x.
  Proof.
    intros Hf. induction cells as [|c cells IH]; intros b m m' HA Hm x Hx; cbn [map write_back]; auto.
    destruct b as [|i b]; auto. apply IH; auto; [intros y Hy; apply HA; right; auto|].
    intros y Hy. unfold upd. destruct (Nat.eqb_spec y c) as [->|Hn]; [rewrite Nat.eqb_refl; auto|].
    destruct (Nat.eqb_spec (f y) (f c)) as [E|_]; auto. exfalso. apply Hn, Hf; auto. apply HA. left; auto.
  Qed.
  Lemma run_ren (f : nat -> nat) (A : nat -> Prop) c c' m m' : (forall x y, A x -> A y -> f x = f y -> x = y) ->
    (forall x, List.In x (cells_of c) -> A x) -> (forall x, A x -> m' (f x) = m x) ->
    c' = match c with Ibex h l => Ibex h (map f l) | Equality a b => Equality (f a) (f b) | Component => Component end ->
    forall x, A x -> run_ctc c' m' (f x) = run_ctc c m x.
  Proof.
    intros Hf HA Hm -> x Hx. destruct c as [h cells|a b|]; cbn [run_ctc cells_of] in *; auto.
    - rewrite map_map. rewrite (map_ext_in (fun x => m' (f x)) m) by auto. apply (write_back_ren f A); auto.
    - assert (Aa : A a) by (apply HA; left; auto). assert (Ab : A b) by (apply HA; right; left; auto).
      rewrite !Hm by auto. unfold upd.
      destruct (Nat.eqb_spec x b) as [->|Hb]; [rewrite Nat.eqb_refl; auto|].
      destruct (Nat.eqb_spec (f x) (f b)) as [E|_]; [exfalso; apply Hb, Hf; auto|].
      destruct (Nat.eqb_spec x a) as [->|Hn]; [rewrite Nat.eqb_refl; auto|].
      destruct (Nat.eqb_spec (f x) (f a)) as [E|_]; [exfalso; apply Hn, Hf; auto|auto].
  Qed.
  Lemma write_back_cover : forall cells b m m' x, length b = length cells -> List.In x cells -> write_back cells b m x = write_back cells b m' x.
  Proof. exact write_back_ext. Qed.
  Lemma reset_mem_same : interm_ok -> forall l m m' x, (forall p, List.In p l -> List.In p (v_interm g)) ->
    List.In x (flat_map (fun p => own (fst p)) l) \/ m x = m' x -> reset_mem g l m x = reset_mem g l m' x.
  Proof.
    intros Hi. induction l as [|p l IH]; intros m m' x Hl Hx. { destruct Hx as [[]|Hx]; auto. }
    cbn [reset_mem fold_left]. fold (reset_mem g l). apply IH; [intros q Hq; apply Hl; right; auto|].
    cbn [flat_map] in Hx. rewrite in_app_iff in Hx.
    destruct (in_dec Nat.eq_dec x (own (fst p))) as [Ho|Ho].
    - right. apply write_back_ext; auto. apply Hi, Hl. left; auto.
    - destruct Hx as [[Hx|Hx]|Hx]; [contradiction|left; auto|]. right. rewrite !write_back_other; auto.
  Qed.

  (** C105: in a closed network the result of [CtcCN::contract] depends on the box only, neither on the
      previous calls (whatever they were, interrupted or not) nor on where the box is in memory. *)
  Theorem C105_stateless : forall b K m m' hist hist' s s' xs xs' n t t',
    vec_ok g b -> linked b -> interm_ok -> closed K b -> 0 <= v_ratio g < 1 ->
    vexec g b hist (built g K m) = Done s -> vexec g b hist' (built g K m') = Done s' ->
    apart g K xs -> apart g K xs' ->
    Forall wf (map (mem_of s) xs) -> map (mem_of s) xs = map (mem_of s') xs' ->
    ctc_cn g b xs n s = Done t -> ctc_cn g b xs' n s' = Done t' ->
    map (mem_of t) xs = map (mem_of t') xs'.
  Proof.
    intros b K m m' hist hist' s s' xs xs' n t t' V L Iok (C1 & C2) Hr E E' Ha Ha' W Em Ec Ec'.
    destruct (inv_reached g b K m hist s V E) as (Q & A & HK).
    destruct (inv_reached g b K m' hist' s' V E') as (Q' & A' & HK').
    destruct (reset_interm_spec g s Q A) as (Q1 & A1 & K1 & M1).
    destruct (reset_interm_spec g s' Q' A') as (Q1' & A1' & K1' & M1'). cbn beta in M1, M1', Em, W.
    destruct (contract_vars_spec g b xs n _ t V Q1 A1 Ec) as (Hl & s2 & Q2 & M2 & K2 & B2 & P2 & O2 & E2 & _ & _ & _ & M3).
    destruct (contract_vars_spec g b xs' n _ t' V Q1' A1' Ec') as (Hl' & s2' & Q2' & M2' & K2' & B2' & P2' & O2' & E2' & _ & _ & _ & M3').
    cbn beta in M2, M2', M3, M3'.
    assert (Ek : known _ s = known _ s').
    { clear - E E' V.
      assert (G : forall J m hist s, vexec g b hist (built g J m) = Done s -> known _ s = known _ (built g J m)).
      { clear - V. intros J m1 hist1. assert (I : inv g J (built g J m1)) by (destruct (built_spec g J m1) as (Q & A & _ & HK); refine (conj Q (conj A HK))).
        revert I. generalize (built g J m1). induction hist1 as [|o hist1 IH]; intros u I s E; cbn [vexec] in E; [congruence|].
        destruct (vapply g b o u) as [u1|u1] eqn:E1; [|discriminate].
        assert (I1 := inv_step g b J o u u1 V I E1). rewrite (IH u1 I1 s E). clear - V I E1. destruct I as (Q & A & _).
        destruct o as [x i|xs n|xs n|]; cbn [vapply] in E1.
        - injection E1 as <-. reflexivity.
        - destruct (reset_interm_spec g u Q A) as (Q1 & A1 & K1 & M1).
          destruct (contract_vars_spec g b xs n _ u1 V Q1 A1 E1) as (_ & s1 & _ & _ & _ & _ & _ & _ & _ & _ & _ & K2 & _). congruence.
        - destruct (contract_vars_spec g b xs n _ u1 V Q A E1) as (_ & s1 & _ & _ & _ & _ & _ & _ & _ & _ & _ & K2 & _). congruence.
        - injection E1 as <-. destruct (reset_interm_spec g u Q A) as (_ & _ & K1 & _). exact K1. }
      rewrite (G _ _ _ _ E), (G _ _ _ _ E').
      unfold built. clear. enough (G : forall J u u', known vheap u = known vheap u' ->
        known _ (fold_left (fun s c => add_ctc vheap (vtyp g) c s) J u) = known _ (fold_left (fun s c => add_ctc vheap (vtyp g) c s) J u')) by (apply G; reflexivity).
      induction J as [|c J IH]; intros u u' H; cbn [fold_left]; auto. apply IH. unfold add_ctc. rewrite H.
      destruct (has c (known vheap u')); auto. }
    assert (Ed : deque _ s2 = deque _ s2').
    { rewrite E2, E2'. apply prepared_queue; auto; try apply Hr.
      - intros x Hx. apply (proj2 Ha x Hx).
      - intros x Hx. apply (proj2 Ha' x Hx). }
    destruct Ha as (N1 & N2). destruct Ha' as (N1' & N2').
    assert (Hll : length xs' = length xs) by congruence.
    set (I := interm_cells g) in *. set (f := ren xs xs').
    set (AA := fun x => List.In x xs \/ List.In x I).
    assert (Hf : forall x y, AA x -> AA y -> f x = f y -> x = y).
    { intros x y Hx Hy. apply (ren_inj xs xs' I); auto. intros z Hz. apply (N2' z Hz). }
    set (r := hr (hp s2)) in *. set (r' := hr (hp s2')) in *.
    (* references of the domains of the network *)
    assert (Rd : forall d, d = b \/ List.In d (own b) \/ (forall e, List.In e (own d) -> List.In e I) ->
      r' d = map f (r d) /\ (forall x, List.In x (r d) -> AA x)).
    { intros d Hd. destruct (Nat.eq_dec d b) as [->|Hb].
      - rewrite B2, B2'. split; [symmetry; apply ren_map; auto|]. intros x Hx. left; auto.
      - destruct (in_dec Nat.eq_dec d (own b)) as [Ho|Ho].
        + destruct (In_nth (own b) d 0%nat Ho) as (j & Hj & Ej).
          assert (Hp : List.In (d, nth j xs 0%nat) (combine (own b) xs)).
          { rewrite <- Ej. rewrite <- combine_nth by auto. apply nth_In. rewrite combine_length. lia. }
          assert (Hp' : List.In (d, nth j xs' 0%nat) (combine (own b) xs')).
          { rewrite <- Ej. rewrite <- combine_nth by auto. apply nth_In. rewrite combine_length. lia. }
          assert (R1 := P2 _ Hp). assert (R2 := P2' _ Hp'). cbn [fst snd] in R1, R2. rewrite R1, R2. split.
          * cbn [map]. f_equal. rewrite <- (map_nth f xs 0%nat j). unfold f. rewrite ren_map by auto. apply nth_indep. lia.
          * intros x [<-|[]]. left. apply nth_In. lia.
        + destruct Hd as [Hd|[Hd|Hd]]; try contradiction. rewrite O2, O2' by auto. split.
          * rewrite <- (map_id (own d)) at 1. apply map_ext_in. intros e He. symmetry. apply ren_out; auto.
            intros Hx. apply (N2 e Hx). apply Hd; auto.
          * intros x Hx. right. auto. }
    assert (Cell : forall d, List.In d (used g K) -> cell r' d = f (cell r d) /\ AA (cell r d)).
    { intros d Hd.
      assert (Hc : r d <> [] /\ (d = b \/ List.In d (own b) \/ (forall e, List.In e (own d) -> List.In e I))).
      { destruct (C1 d Hd) as [Ho|(Hn & Hv & Hi)].
        - split; auto. destruct (in_combine_l' (own b) xs d (eq_sym Hl) Ho) as (x & Hx). specialize (P2 _ Hx). cbn in P2. fold r in P2. rewrite P2. discriminate.
        - destruct (in_dec Nat.eq_dec d (own b)) as [Ho|Ho].
          + split; auto. destruct (in_combine_l' (own b) xs d (eq_sym Hl) Ho) as (x & Hx). specialize (P2 _ Hx). cbn in P2. fold r in P2. rewrite P2. discriminate.
          + rewrite O2 by auto. unfold CNVar.own. rewrite Hv. split; [discriminate|]. right. right. intros e [<-|[]]. exact Hi. }
      destruct Hc as (Hn & Hc). destruct (Rd d Hc) as (R1 & R2). unfold cell. rewrite R1.
      destruct (r d) as [|x l]; [congruence|]. cbn [map hd]. split; auto. apply R2. left; auto. }
    set (Rh := fun h h' => hr h = r /\ hr h' = r' /\ forall x, AA x -> hm h' (f x) = hm h x).
    set (DD := fun d => d = b \/ List.In d (own b) \/ (forall e, List.In e (own d) -> List.In e I)).
    assert (RR : forall c h h', List.In c K -> Rh h h' -> Rh (vrun g c h) (vrun g c h')).
    { intros c h h' Hc (R1 & R2 & R3). refine (conj R1 (conj R2 _)). unfold vrun. cbn [hm]. rewrite R1, R2.
      apply (run_ren f AA (resolve r (v_ctc g c))); auto.
      - intros x. rewrite resolve_cells, in_map_iff. intros (d & <- & Hd). apply Cell. apply (used_in g K c); auto.
      - assert (Hu : forall d, List.In d (cells_of (v_ctc g c)) -> cell r' d = f (cell r d)).
        { intros d Hd. apply Cell. apply (used_in g K c); auto. }
        destruct (v_ctc g c) as [h0 l|a a'|]; cbn [resolve cells_of] in *; auto.
        + rewrite map_map. rewrite (map_ext_in (cell r') (fun d => f (cell r d))); auto.
        + rewrite !Hu; cbn; auto. }
    assert (VR : forall d h h', DD d -> Rh h h' -> vvolume g d h = vvolume g d h').
    { intros d h h' Hd (R1 & R2 & R3). destruct (Rd d Hd) as (D1 & D2). unfold vvolume. rewrite R1, R2.
      assert (Em2 : map (hm h') (r' d) = map (hm h) (r d)).
      { rewrite D1, map_map. apply map_ext_in. intros x Hx. apply R3, D2; auto. }
      destruct (v_comps g d) as [|e l] eqn:Ev; [|rewrite Em2; auto].
      unfold cell. destruct (r d) as [|x l] eqn:Er.
      - exfalso. clear - Er Ev V Hd P2 O2 B2 Hl. destruct (Nat.eq_dec d b) as [->|Hb].
        + rewrite B2 in Er. unfold CNVar.own in Hl. rewrite Er, Ev in Hl. cbn in Hl. lia.
        + destruct (in_dec Nat.eq_dec d (own b)) as [Ho|Ho].
          * destruct (in_combine_l' (own b) xs d (eq_sym Hl) Ho) as (x & Hx). specialize (P2 _ Hx). cbn in P2. congruence.
          * rewrite O2 in Er by auto. unfold CNVar.own in Er. rewrite Ev in Er. discriminate.
      - rewrite D1 in *. cbn [map hd] in *. congruence. }
    assert (H0 : Rh (hp s2) (hp s2')).
    { refine (conj eq_refl (conj eq_refl _)). intros x Hx. rewrite M2, M2', M1, M1'.
      destruct (in_dec Nat.eq_dec x xs) as [Hi|Hi].
      - rewrite (reset_mem_other g _ _ x) by (apply (N2 x Hi)).
        assert (Hfx : List.In (f x) xs') by (rewrite <- (ren_map xs xs' N1 Hll); apply List.in_map; auto).
        rewrite (reset_mem_other g _ _ (f x)) by (apply (N2' _ Hfx)).
        revert Em. rewrite <- (ren_map xs xs' N1 Hll) at 1. rewrite map_map. fold f. generalize (hm (hp s)) (hm (hp s')) f Hi. clear.
        intros m m' f Hi Em. induction xs as [|y l IH]; [contradiction|]. cbn [map] in Em. injection Em as E1 E2.
        destruct Hi as [<-|Hi]; auto.
      - destruct Hx as [Hx|Hx]; [contradiction|]. unfold f. rewrite ren_out by auto. symmetry. apply reset_mem_same; auto. }
    assert (Sim : sim vheap (vtyp g) Rh DD (contract vheap (vrun g) (vvolume g) (vtyp g) (v_doms g) (v_ctcs g) (v_comps g) (v_ratio g) n s2)
      (contract vheap (vrun g) (vvolume g) (vtyp g) (v_doms g) (v_ctcs g) (v_comps g) (v_ratio g) n s2')).
    { unfold contract. apply (loop_sim vheap (vrun g) (vvolume g) (vtyp g) (v_doms g) (v_ctcs g) (v_comps g) (v_ratio g) (vtyp_no_cn) Rh (fun c => List.In c K) DD RR VR).
      - intros c d Hc Hd. apply (C2 c d); auto.
      - intros c Hc. apply HK. cbn in Hc. rewrite K2, K1 in Hc. exact Hc.
      - refine (conj (conj Q2 (conj Q2' (conj Ed _))) (conj H0 _)); [cbn; congruence|]. intros d Hd. apply VR; auto. }
    destruct Sim as (_ & (_ & _ & Hm) & _). rewrite M3, M3'.
    rewrite <- (ren_map xs xs' N1 Hll) at 1. rewrite map_map. apply map_ext_in. intros x Hx. symmetry. apply Hm. left; auto.
  Qed.
End Stateless.

(** ** A network: a box of one variable [x] (vector 10, component 0), a second domain [y] (2), and [x = y] *)
Definition ex_c (c : nat) : contractor := match c with 1%nat => Equality 0 2 | _ => Component end.
Definition ex_d (c : nat) : list nat := match c with 1%nat => [0; 2]%nat | _ => [10; 0]%nat end.
Definition ex_n (d : nat) : list nat := match d with 10%nat => [0]%nat | 0%nat => [0; 1]%nat | 2%nat => [1]%nat | _ => [] end.
Definition ex_p (d : nat) : list nat := match d with 10%nat => [0]%nat | _ => [] end.
(** [interm]: the intermediate variables with their initial values *)
Definition ex_vnet (interm : list (nat * list itv)) : vnet := mkVN ex_c ex_d ex_n ex_p [10%nat] interm 0.
(** [y] in [0,10]; two boxes of the user, [0,1] in cell 20 and [2,3] in cell 21 *)
Definition ex_m (x : nat) : itv := match x with 2%nat => I2 0 10 | 20%nat => I2 0 1 | 21%nat => I2 2 3 | _ => ALL end.

Section Ex.
  Variable interm : list (nat * list itv).
  Let g := ex_vnet interm.
  Notation ok := (queue_ok vheap (vtyp g)).
  Notation hp := (heap vheap).

  Lemma ex_vec : vec_ok g 10.
  Proof. refine (conj _ (conj _ _)); cbn; [repeat constructor; intros []|intros [E|[]]; discriminate|intros e [<-|[]]; reflexivity]. Qed.

  (** two elements at most *)
  Lemma two_queue q : NoDup q -> (forall c, List.In c q -> List.In c [1; 0]%nat) -> List.In 1%nat q ->
    (exists q', q = 1%nat :: q') \/ q = [0; 1]%nat.
  Proof.
    intros Hd Hs H1. destruct q as [|c q]; [contradiction|]. destruct (Hs c (or_introl eq_refl)) as [<-|[<-|[]]]; [left; eauto|].
    right. f_equal. inversion Hd as [|? ? Hn Hd']; subst. destruct H1 as [H1|H1]; [discriminate|].
    destruct q as [|c' q]; [contradiction|]. assert (Hc : c' = 1%nat).
    { destruct (Hs c' (or_intror (or_introl eq_refl))) as [<-|[<-|[]]]; auto. exfalso. apply Hn. left; auto. }
    subst. f_equal. destruct q as [|c q]; auto. exfalso. inversion Hd' as [|? ? Hn' Hd'']; subst.
    destruct (Hs c (or_intror (or_intror (or_introl eq_refl)))) as [<-|[<-|[]]]; [apply Hn'; left; auto|apply Hn; right; left; auto].
  Qed.
  Lemma meet_idem i : wf i -> inter i i = i.
  Proof. intros W. apply inter_sub_eq; auto. apply sub_refl. Qed.

  (** a contraction, whatever the state before: the equality is enforced *)
  Lemma ex_call x n s s' : inv g [0; 1]%nat s -> wf (hm (hp s) x) -> x <> 2%nat ->
    contract_vars g [(10%nat, [x])] (2 + n) s = Done s' -> hm (hp s') = run_ctc (Equality x 2) (hm (hp s)).
  Proof.
    intros (Q & A & HK) W Hx E.
    destruct (contract_vars_spec g 10 [x] (2 + n) s s' ex_vec Q A E) as (_ & s1 & Q1 & M1 & K1 & B1 & P1 & O1 & E1 & _ & _ & _ & M2).
    cbn beta in M1, M2, B1, P1, O1. set (r := hr (hp s1)) in *.
    assert (R0 : r 0%nat = [x]) by (apply (P1 (0%nat, x)); left; reflexivity).
    assert (R2 : r 2%nat = [2]%nat) by (rewrite O1; [reflexivity|discriminate|cbn; intros [F|[]]; discriminate]).
    assert (K2 : forall c, List.In c (known _ s1) <-> List.In c [0; 1]%nat) by (intros c; rewrite K1; apply HK).
    (* the equality is in the queue *)
    assert (Act : active _ s1 1%nat = true).
    { rewrite E1. unfold replace_var. change (v_comps g 10) with [0%nat]. cbn [combine fold_left fst snd].
      destruct (replace1_spec g 10 [x] s Q) as (Qa & Ma & _ & Ka). cbn beta in Ma.
      set (sa := replace1 g 10 [x] s) in *. unfold replace1, vtrigger, trigger. change (v_comps g 0) with (@nil nat). cbn [fold_left].
      set (sb := set_ref 0 [x] sa).
      destruct (trigger1_spec vheap (vrun g) (vvolume g) (vtyp g) (v_doms g) (v_ctcs g) (v_comps g) (v_ratio g) 0 None sb Qa) as (_ & _ & B & _).
      apply B; [|right; left; reflexivity| |discriminate].
      - unfold sb at 2. cbn [saved set_ref]. rewrite upd_same. apply shrunk_fresh; [cbn; lra|].
        unfold vvolume. change (v_comps g 0) with (@nil nat). cbn iota. unfold cell, sb. cbn [heap set_ref hr hm]. rewrite upd_same. cbn [hd]. rewrite Ma.
        unfold itv_volume. destruct (hm (hp s) x) as [|[a|] [b|]]; cbn in *; lra.
      - unfold sb. cbn [known set_ref]. rewrite Ka. apply HK. right; left; reflexivity. }
    set (M := run_ctc (Equality x 2) (hm (hp s))) in *.
    assert (Run1 : forall h, hr h = r -> hm h = hm (hp s) -> vrun g 1 h = mkVH M r).
    { intros h H1 H2. unfold vrun. rewrite H1, H2. unfold resolve. change (v_ctc g 1) with (Equality 0 2).
      unfold cell. rewrite R0, R2. reflexivity. }
    assert (Keep : forall c h, List.In c [0; 1]%nat -> hr h = r /\ hm h = M -> hr (vrun g c h) = r /\ hm (vrun g c h) = M).
    { intros c h [<-|[<-|[]]] (H1 & H2).
      - split; [exact H1|]. exact H2.
      - split; [exact H1|]. unfold vrun. cbn [hm]. rewrite H1, H2. unfold resolve. change (v_ctc g 1) with (Equality 0 2).
        unfold cell. rewrite R0, R2. cbn [hd run_ctc].
        assert (Mx : M x = inter (hm (hp s) x) (hm (hp s) 2%nat)).
        { unfold M. cbn [run_ctc]. rewrite upd_other by auto. apply upd_same. }
        assert (My : M 2%nat = inter (hm (hp s) x) (hm (hp s) 2%nat)) by (unfold M; cbn [run_ctc]; apply upd_same).
        rewrite Mx, My, meet_idem by apply wf_inter. apply functional_extensionality. intros z. unfold upd.
        destruct (Nat.eqb_spec z 2) as [->|Hz]; [auto|]. destruct (Nat.eqb_spec z x) as [->|Hz']; auto. }
    assert (Loop : forall k t, ok t -> (forall c, List.In c (known _ t) -> List.In c [0; 1]%nat) -> hr (hp t) = r /\ hm (hp t) = M ->
      hm (hp (loop vheap (vrun g) (vvolume g) (vtyp g) (v_doms g) (v_ctcs g) (v_comps g) (v_ratio g) k t)) = M).
    { intros k t Qt Kt Ht.
      destruct (loop_inv vheap (vrun g) (vvolume g) (vtyp g) (v_doms g) (v_ctcs g) (v_comps g) (v_ratio g)
        (fun h => hr h = r /\ hm h = M) (fun c => List.In c [0; 1]%nat) Keep k t Qt Kt Ht) as ((_ & G) & _). exact G. }
    rewrite M2. unfold contract. change (2 + n)%nat with (Datatypes.S (Datatypes.S n)). set (t := save_volumes vheap (vvolume g) s1).
    assert (Qt : ok t) by exact Q1.
    assert (Kt : forall c, List.In c (known _ t) -> List.In c [0; 1]%nat) by (intros c Hc; apply K2; exact Hc).
    assert (Hst : forall c q u, ok u -> (forall c, List.In c (known _ u) -> List.In c [0; 1]%nat) -> deque _ u = c :: q ->
      let u' := step vheap (vrun g) (vvolume g) (vtyp g) (v_doms g) (v_ctcs g) (v_comps g) (v_ratio g) u in
      ok u' /\ (forall c, List.In c (known _ u') -> List.In c [0; 1]%nat) /\ hp u' = vrun g c (hp u)).
    { intros c q u Qu Ku Eu. cbn zeta. destruct (step_heap vheap (vrun g) (vvolume g) (vtyp g) (v_doms g) (v_ctcs g) (v_comps g) (v_ratio g) c q u Eu) as (H1 & H2).
      refine (conj (step_ok _ _ _ _ _ _ _ _ u Qu) (conj _ H1)). rewrite H2. exact Ku. }
    assert (Hq : (exists q, deque _ t = 1%nat :: q) \/ deque _ t = [0; 1]%nat).
    { destruct Q1 as (D1 & D2 & D3 & D4 & D5). apply two_queue; auto.
      - intros c Hc. apply D3, D4, K2 in Hc. destruct Hc as [<-|[<-|[]]]; cbn; auto.
      - apply D5; auto. discriminate. }
    destruct Hq as [(q & Eq)|Eq].
    - rewrite (loop_S _ _ _ _ _ _ _ _ _ t 1%nat q Eq). destruct (Hst 1%nat q t Qt Kt Eq) as (Q2 & K3 & H2).
      apply (Loop (Datatypes.S n)); auto. rewrite H2. rewrite Run1; auto.
    - rewrite (loop_S _ _ _ _ _ _ _ _ _ t 0%nat [1%nat] Eq). destruct (Hst 0%nat [1%nat] t Qt Kt Eq) as (Q2 & K3 & H2).
      set (u := step vheap (vrun g) (vvolume g) (vtyp g) (v_doms g) (v_ctcs g) (v_comps g) (v_ratio g) t) in *.
      assert (Eu : deque _ u = [1%nat]).
      { unfold u. rewrite (step_eq _ _ _ _ _ _ _ _ 0%nat [1%nat] t Eq).
        assert (Idle : forall l v, active _ v 1%nat = true -> deque _ v = [1%nat] ->
          (forall d c, List.In d l -> List.In c (v_ctcs g d) -> c = 0%nat \/ c = 1%nat) ->
          deque _ (fold_left (fun s i => trigger1 vheap (vvolume g) (vtyp g) (v_ctcs g) (v_ratio g) i (Some 0%nat) s) l v) = [1%nat]).
        { induction l as [|d l IH]; intros v Av Dv Hl; cbn [fold_left]; auto.
          destruct (trigger1_idle vheap (vvolume g) (vtyp g) (v_ctcs g) (v_ratio g) d (Some 0%nat) v) as (T1 & T2).
          - intros c Hc _. destruct (Hl d c (or_introl eq_refl) Hc) as [-> | ->]; auto.
          - apply IH; [rewrite T2; auto|rewrite T1; auto|]. intros d' c' Hd'. apply Hl. right; auto. }
        apply Idle; [exact Act|reflexivity|].
        intros d c [<-|[<-|[<-|[]]]] Hc; cbn in Hc; intuition. }
      rewrite (loop_S _ _ _ _ _ _ _ _ _ u 1%nat [] Eu). destruct (Hst 1%nat [] u Q2 K3 Eu) as (Q3 & K4 & H3).
      apply (Loop n); auto. rewrite H3. rewrite Run1; auto; rewrite H2; auto.
  Qed.
End Ex.

(** the intermediate variable [y], initially [0,10] *)
Definition gI : vnet := ex_vnet [(2%nat, [I2 0 10])].
(** the same network, [y] being an interval of the user *)
Definition gX : vnet := ex_vnet [].

Lemma ex_apart interm x : (forall e, List.In e (interm_cells (ex_vnet interm)) -> e = 2%nat) -> x <> 0%nat -> x <> 2%nat -> apart (ex_vnet interm) [0; 1]%nat [x].
Proof.
  intros Hi H0 H2. split; [repeat constructor; intros []|]. intros y [<-|[]]. split.
  - cbn. intuition congruence.
  - intros Hc. apply Hi in Hc. contradiction.
Qed.
Lemma gI_cells e : List.In e (interm_cells gI) -> e = 2%nat.
Proof. cbn. intuition. Qed.
Lemma gX_cells e : List.In e (interm_cells gX) -> e = 2%nat.
Proof. cbn. intuition. Qed.
Lemma ex_scalars interm : scalars (ex_vnet interm) [0; 1]%nat 10.
Proof. intros d Hd. cbn in Hd. destruct Hd as [<-|[<-|[]]]; [left; cbn; auto|right; split; [discriminate|reflexivity]]. Qed.
Lemma ex_returns interm K m hist s x n : vexec (ex_vnet interm) 10 hist (built (ex_vnet interm) K m) = Done s -> x <> 0%nat ->
  (exists s', ctc_cn (ex_vnet interm) 10 [x] n s = Done s') /\ (exists s', contract_vars (ex_vnet interm) [(10%nat, [x])] n s = Done s').
Proof.
  intros E Hx. assert (Hv : forall d, List.In d [10%nat] -> d = 10%nat \/ List.In d [0%nat]) by (intros d [<-|[]]; auto).
  assert (Ho : forall y, List.In y [x] -> ~ List.In y [0%nat]) by (intros y [<-|[]] [Hy|[]]; congruence).
  split.
  - apply (C105_returns (ex_vnet interm) 10 K m hist s [x] n (ex_vec interm) E); auto.
  - destruct (inv_reached (ex_vnet interm) 10 K m hist s (ex_vec interm) E) as (Q & A & _).
    apply (contract_vars_returns (ex_vnet interm) 10 [x] n s (ex_vec interm) Q A); auto.
Qed.
(** the point x = y = 2 *)
Lemma ex_sat interm c : List.In c [0; 1]%nat -> satisfies (fun _ => 2) (v_ctc (ex_vnet interm) c).
Proof. intros [<-|[<-|[]]]; cbn; auto. Qed.

Lemma gX_call_u x n u s' : inv gX [0; 1]%nat u -> wf (hm (heap _ u) x) -> x <> 2%nat ->
  contract_vars gX [(10%nat, [x])] (2 + n) u = Done s' -> hm (heap _ s') = run_ctc (Equality x 2) (hm (heap _ u)).
Proof. exact (ex_call [] x n u s'). Qed.
Lemma gX_reset_mem s : inv gX [0; 1]%nat s -> inv gX [0; 1]%nat (reset_interm_vars gX s) /\ hm (heap _ (reset_interm_vars gX s)) = hm (heap _ s).
Proof.
  intros (Q & A & HK). destruct (reset_interm_spec gX s Q A) as (Q1 & A1 & K1 & M1).
  refine (conj (conj Q1 (conj A1 _)) _); [rewrite K1; exact HK|]. exact M1.
Qed.
Lemma ctc_cn_eq g b xs n s : ctc_cn g b xs n s = contract_vars g [(b, xs)] n (reset_interm_vars g s).
Proof. reflexivity. Qed.
Lemma gX_call x n s s' : inv gX [0; 1]%nat s -> wf (hm (heap _ s) x) -> x <> 2%nat ->
  ctc_cn gX 10 [x] (2 + n) s = Done s' -> hm (heap _ s') = run_ctc (Equality x 2) (hm (heap _ s)).
Proof.
  intros H W Hx E. destruct (gX_reset_mem s H) as (Q1 & M). rewrite ctc_cn_eq in E.
  revert Q1 M E. generalize (reset_interm_vars gX s). intros u Q1 M E.
  rewrite <- M. rewrite <- M in W. exact (gX_call_u x n u s' Q1 W Hx E).
Qed.
(** two contractions with no reset of [y]: nothing is left of the second box *)
Lemma twice_empty s1 s2 : hm (heap _ s1) = run_ctc (Equality 20 2) ex_m -> hm (heap vheap s2) = run_ctc (Equality 21 2) (hm (heap vheap s1)) ->
  hm (heap _ s1) 21%nat = I2 2 3 /\ hm (heap _ s2) 21%nat = Emp.
Proof.
  intros E1 E2. rewrite E2, E1. split; [reflexivity|]. cbn [run_ctc]. unfold upd. cbn [Nat.eqb ex_m]. cbn.
  unfold I2. cbn. unfold mk. reval. reflexivity.
Qed.
Lemma not_in_emp (p : R) : ~ Forall2 In [p] [Emp].
Proof. intros F. inversion F; subst. contradiction. Qed.
Lemma lost (m : mem) (x : nat) : m x = Emp -> ~ Forall2 In (map (fun _ : nat => 2) [0%nat]) (map m [x]).
Proof. intros E. cbn [map]. rewrite E. apply not_in_emp. Qed.
Lemma kept (m : mem) (x : nat) i : m x = i -> In 2 i -> Forall2 In (map (fun _ : nat => 2) [0%nat]) (map m [x]).
Proof. intros E Hi. cbn [map]. rewrite E. auto. Qed.

(** a first contraction on [0,1], without the contractor, then the box [2,3]: the point 2 is kept *)
Example C105_solutions_ex : exists s s', vexec gI 10 [Raw [20%nat] 2] (built gI [0; 1]%nat ex_m) = Done s /\
  ctc_cn gI 10 [21%nat] 7 s = Done s' /\ Forall2 In [2] [hm (heap _ s') 21%nat].
Proof.
  assert (B0 := built_spec gI [0; 1]%nat ex_m). set (u := built gI [0; 1]%nat ex_m) in *.
  assert (Eu : vexec gI 10 [] (built gI [0; 1]%nat ex_m) = Done u) by reflexivity.
  destruct (ex_returns _ _ _ _ u 20 2 Eu) as (_ & (s & Es)); [discriminate|].
  assert (E : vexec gI 10 [Raw [20%nat] 2] (built gI [0; 1]%nat ex_m) = Done s).
  { fold u. clearbody u. cbn [vexec vapply]. change (contract_vars gI [(10%nat, [20%nat])] 2 u = Done s) in Es. rewrite Es. reflexivity. }
  destruct (ex_returns _ _ _ _ s 21 7 E) as ((s' & Es') & _); [discriminate|].
  assert (Hm : hm (heap _ s) = run_ctc (Equality 20 2) ex_m).
  { clearbody u. destruct B0 as (Q & A & M & HK). cbn beta in M. rewrite <- M.
    apply (ex_call _ 20 0 u s (conj Q (conj A HK))); [rewrite M; cbn; lra|discriminate|exact Es]. }
  exists s, s'. refine (conj E (conj Es' _)).
  assert (Ap : apart gI [0; 1]%nat [21%nat]) by (apply ex_apart; [apply gI_cells|discriminate|discriminate]).
  apply (C105_solutions gI 10 [0; 1]%nat ex_m _ s [21%nat] 7 s' (fun _ => 2) (ex_vec _) E Ap (ex_scalars _)); auto.
  - refine (conj _ (conj _ _)).
    + intros c Hc. apply (ex_sat [(2%nat, [I2 0 10])]); auto.
    + intros d init [Hp|[]]. injection Hp as <- <-. cbn. repeat constructor; cbn; lra.
    + intros d Hd Hn Hi. exfalso. cbn in Hd, Hn, Hi. intuition.
  - apply (kept _ _ (I2 2 3)); [rewrite Hm; reflexivity|cbn; lra].
Qed.

(** C105: without the reset of the intermediate variables, [contract({v,x})] on two boxes in turn loses
    solutions on the second one. *)
Theorem C105_reset_refuted : exists g b K m hist s xs n s' w,
  vec_ok g b /\ vexec g b hist (built g K m) = Done s /\ apart g K xs /\ scalars g K b /\
  values_ok g K b (hm (heap _ s)) w /\ Forall2 In (map w (own g b)) (map (hm (heap _ s)) xs) /\
  contract_vars g [(b, xs)] n s = Done s' /\ ~ Forall2 In (map w (own g b)) (map (hm (heap _ s')) xs).
Proof.
  assert (B0 := built_spec gI [0; 1]%nat ex_m). set (u := built gI [0; 1]%nat ex_m) in *.
  assert (Eu : vexec gI 10 [] (built gI [0; 1]%nat ex_m) = Done u) by reflexivity. 
  destruct (ex_returns _ _ _ _ u 20 2 Eu) as (_ & (s & Es)); [discriminate|].
  assert (E : vexec gI 10 [Raw [20%nat] 2] (built gI [0; 1]%nat ex_m) = Done s).
  { fold u. clearbody u. cbn [vexec vapply]. change (contract_vars gI [(10%nat, [20%nat])] 2 u = Done s) in Es. rewrite Es. reflexivity. }
  destruct (ex_returns _ _ _ _ s 21 2 E) as (_ & (s' & Es')); [discriminate|].
  assert (I1 : inv gI [0; 1]%nat s) by (apply (inv_reached gI 10 [0; 1]%nat ex_m _ s (ex_vec _) E)).
  assert (Hm : hm (heap _ s) = run_ctc (Equality 20 2) ex_m).
  { clearbody u. destruct B0 as (Q & A & M & HK). cbn beta in M. rewrite <- M.
    apply (ex_call _ 20 0 u s (conj Q (conj A HK))); [rewrite M; cbn; lra|discriminate|exact Es]. }
  assert (Hm' : hm (heap _ s') = run_ctc (Equality 21 2) (hm (heap _ s))).
  { apply (ex_call _ 21 0 s s' I1); [rewrite Hm; cbn; lra|discriminate|exact Es']. }
  destruct (twice_empty s s' Hm Hm') as (H1 & H2).
  exists gI, 10%nat, [0; 1]%nat, ex_m, [Raw [20%nat] 2], s, [21%nat], 2%nat, s', (fun _ => 2).
  refine (conj (ex_vec _) (conj E (conj _ (conj (ex_scalars _) (conj (conj _ (conj _ _)) (conj _ (conj Es' _))))))).
  - apply ex_apart; [apply gI_cells|discriminate|discriminate].
  - intros c Hc. apply (ex_sat [(2%nat, [I2 0 10])]); auto.
  - intros d init [Hp|[]]. injection Hp as <- <-. cbn. repeat constructor; cbn; lra.
  - intros d Hd Hn Hi. exfalso. cbn in Hd, Hn, Hi. intuition.
  - apply (kept _ _ _ H1). cbn; lra.
  - apply (lost _ _ H2).
Qed.

(** C105: a domain of the network which is not an intermediate variable keeps the contraction of one call
    of [CtcCN::contract] in the next ones: solutions with a value in its initial domain [m] are lost. *)
Theorem C105_external_refuted : exists g b K m hist s xs n s' w,
  vec_ok g b /\ vexec g b hist (built g K m) = Done s /\ apart g K xs /\ scalars g K b /\
  values_ok g K b m w /\ Forall2 In (map w (own g b)) (map (hm (heap _ s)) xs) /\
  ctc_cn g b xs n s = Done s' /\ ~ Forall2 In (map w (own g b)) (map (hm (heap _ s')) xs).
Proof.
  assert (B0 := built_spec gX [0; 1]%nat ex_m). set (u := built gX [0; 1]%nat ex_m) in *.
  assert (Eu : vexec gX 10 [] (built gX [0; 1]%nat ex_m) = Done u) by reflexivity.
  destruct (ex_returns _ _ _ _ u 20 2 Eu) as ((s & Es) & _); [discriminate|].
  assert (E : vexec gX 10 [Call [20%nat] 2] (built gX [0; 1]%nat ex_m) = Done s).
  { fold u. clearbody u. cbn [vexec vapply]. change (ctc_cn gX 10 [20%nat] 2 u = Done s) in Es. rewrite Es. reflexivity. }
  destruct (ex_returns _ _ _ _ s 21 2 E) as ((s' & Es') & _); [discriminate|].
  assert (I1 : inv gX [0; 1]%nat s) by (apply (inv_reached gX 10 [0; 1]%nat ex_m _ s (ex_vec _) E)).
  assert (Hm : hm (heap _ s) = run_ctc (Equality 20 2) ex_m).
  { clearbody u. destruct B0 as (Q & A & M & HK). cbn beta in M. rewrite <- M.
    apply (gX_call 20 0 u s (conj Q (conj A HK))); [rewrite M; cbn; lra|discriminate|exact Es]. }
  assert (Hm' : hm (heap _ s') = run_ctc (Equality 21 2) (hm (heap _ s))).
  { apply (gX_call 21 0 s s' I1); [rewrite Hm; cbn; lra|discriminate|exact Es']. }
  destruct (twice_empty s s' Hm Hm') as (H1 & H2).
  exists gX, 10%nat, [0; 1]%nat, ex_m, [Call [20%nat] 2], s, [21%nat], 2%nat, s', (fun _ => 2).
  refine (conj (ex_vec _) (conj E (conj _ (conj (ex_scalars _) (conj (conj _ (conj _ _)) (conj _ (conj Es' _))))))).
  - apply ex_apart; [apply gX_cells|discriminate|discriminate].
  - intros c Hc. apply (ex_sat []); auto.
  - intros d init [].
  - intros d Hd Hn Hi. cbn in Hd. destruct Hd as [<-|[<-|[]]]; cbn; lra.
  - apply (kept _ _ _ H1). cbn; lra.
  - apply (lost _ _ H2).
Qed.

(** C105: an exception (another variable is not associated with a domain) leaves the variables of the call
    referring to the box of the user. *)
Theorem C105_exception : forall g b K m hist s xs n d,
  vec_ok g b -> vexec g b hist (built g K m) = Done s -> length xs = length (own g b) ->
  List.In d (v_vars g) -> d <> b -> ~ List.In d (own g b) ->
  exists s', ctc_cn g b xs n s = Thrown s' /\ hr (heap _ s') b = xs.
Proof.
  intros g b K m hist s xs n d V E Hl Hd Hn Ho.
  destruct (inv_reached g b K m hist s V E) as (Q & A & HK).
  destruct (reset_interm_spec g s Q A) as (Q1 & A1 & K1 & M1).
  unfold ctc_cn, contract_vars. cbn [forallb fst snd fold_left]. unfold fits. rewrite (proj2 (Nat.eqb_eq _ _) Hl). cbn [andb].
  destruct (replace_var_spec g b xs _ V Hl Q1) as (Q2 & M2 & K2 & B2 & P2 & O2).
  set (s1 := replace_var g b xs (reset_interm_vars g s)) in *.
  replace (existsb (not_associated g (hr (heap _ s1))) (v_vars g)) with true; [eexists; split; [reflexivity|exact B2]|].
  symmetry. apply existsb_exists. exists d. split; auto. unfold not_associated. cbn beta in O2. rewrite O2 by auto. rewrite A1.
  destruct (list_eq_dec _ _ _); congruence.
Qed.
(** a second variable 11 *)
Definition gV : vnet := mkVN ex_c ex_d ex_n ex_p [10%nat; 11%nat] [] 0.
Example C105_exception_ex : exists s', ctc_cn gV 10 [20%nat] 5 (built gV [0; 1]%nat ex_m) = Thrown s' /\ hr (heap _ s') 10%nat = [20%nat] /\ [20%nat] <> own gV 10.
Proof.
  destruct (C105_exception gV 10 [0; 1]%nat ex_m [] _ [20%nat] 5 11 (ex_vec []) eq_refl eq_refl) as (s' & E & H); [cbn; auto|discriminate|cbn; intros [F|[]]; discriminate|].
  exists s'. refine (conj E (conj H _)). discriminate.
Qed.

Example C105_contracts_ex : exists s', ctc_cn gI 10 [20%nat] 5 (built gI [0; 1]%nat ex_m) = Done s' /\
  sub (hm (heap _ s') 20%nat) (I2 0 1) /\ hm (heap _ s') 0%nat = ALL /\ hr (heap _ s') 10%nat = [0%nat].
Proof.
  assert (B0 := built_spec gI [0; 1]%nat ex_m). set (u := built gI [0; 1]%nat ex_m) in *.
  assert (Eu : vexec gI 10 [] (built gI [0; 1]%nat ex_m) = Done u) by reflexivity.
  destruct (ex_returns _ _ _ _ u 20 5 Eu) as ((s & Es) & _); [discriminate|].
  exists s. split; [exact Es|]. destruct B0 as (_ & _ & M & _). cbn beta in M.
  assert (Ap : apart gI [0; 1]%nat [20%nat]) by (apply ex_apart; [apply gI_cells|discriminate|discriminate]).
  assert (C : forall c, List.In c [0; 1]%nat -> contracting (v_ctc gI c)) by (intros c [<-|[<-|[]]]; cbn; auto).
  destruct (C105_contracts gI 10 [0; 1]%nat ex_m [] u [20%nat] 5 s (ex_vec _) Eu Ap (ex_scalars _) C Es) as (H1 & H2 & H3).
  rewrite M in H1, H2.
  refine (conj (H1 20%nat (or_introl eq_refl)) (conj _ (H3 10%nat))).
  rewrite H2; [reflexivity|intros [F|[]]; discriminate| |cbn; intros [F|[]]; discriminate].
  intros (_ & F). apply F. left; reflexivity.
Qed.

(** two histories, two places in memory: same result *)
Lemma gI_hyps : linked gI 10 /\ interm_ok gI /\ closed gI [0; 1]%nat 10 /\ 0 <= v_ratio gI < 1.
Proof.
  refine (conj _ (conj _ (conj (conj _ _) _))).
  - intros e c [<-|[]] [<-|[<-|[]]]; cbn; intros H; [auto|discriminate].
  - intros p [<-|[]]. reflexivity.
  - intros d Hd. cbn in Hd. destruct Hd as [<-|[<-|[]]]; [left; left; reflexivity|right]. refine (conj _ (conj eq_refl _)); [discriminate|left; reflexivity].
  - intros c d [<-|[<-|[]]] Hd; cbn in Hd; repeat (destruct Hd as [<-|Hd]); try contradiction;
      first [left; reflexivity | right; left; left; reflexivity | right; right; intros e He; exact He].
  - cbn. lra.
Qed.
Example C105_stateless_ex : exists s t t', vexec gI 10 [Raw [20%nat] 2; Write 22 (I2 2 3)] (built gI [0; 1]%nat ex_m) = Done s /\
  ctc_cn gI 10 [22%nat] 4 s = Done t /\ ctc_cn gI 10 [21%nat] 4 (built gI [0; 1]%nat ex_m) = Done t' /\
  hm (heap _ t) 22%nat = hm (heap _ t') 21%nat.
Proof.
  assert (B0 := built_spec gI [0; 1]%nat ex_m). set (u := built gI [0; 1]%nat ex_m) in *.
  assert (Eu : vexec gI 10 [] (built gI [0; 1]%nat ex_m) = Done u) by reflexivity.
  destruct (ex_returns _ _ _ _ u 20 2 Eu) as (_ & (s0 & Es)); [discriminate|].
  assert (E : vexec gI 10 [Raw [20%nat] 2; Write 22 (I2 2 3)] (built gI [0; 1]%nat ex_m) = Done (write 22 (I2 2 3) s0)).
  { fold u. clearbody u. cbn [vexec vapply]. change (contract_vars gI [(10%nat, [20%nat])] 2 u = Done s0) in Es. rewrite Es. reflexivity. }
  assert (Hw : hm (heap _ (write 22 (I2 2 3) s0)) 22%nat = I2 2 3) by reflexivity.
  revert E Hw. generalize (write 22 (I2 2 3) s0). intros s E Hw. 
  destruct (ex_returns _ _ _ _ s 22 4 E) as ((t & Et) & _); [discriminate|].
  destruct (ex_returns _ _ _ _ u 21 4 Eu) as ((t' & Et') & _); [discriminate|].
  exists s, t, t'. refine (conj E (conj Et (conj Et' _))). destruct B0 as (_ & _ & M & _). cbn beta in M.
  destruct gI_hyps as (H1 & H2 & H3 & H4).
  assert (Ap : forall x, x <> 0%nat -> x <> 2%nat -> apart gI [0; 1]%nat [x]) by (intros x; apply ex_apart, gI_cells).
  assert (G' : map (hm (heap _ t)) [22%nat] = map (hm (heap _ t')) [21%nat]).
  { refine (C105_stateless gI 10 [0; 1]%nat ex_m ex_m [Raw [20%nat] 2; Write 22 (I2 2 3)] [] s u [22%nat] [21%nat] 4 t t' (ex_vec _) H1 H2 H3 H4 E Eu (Ap _ _ _) (Ap _ _ _) _ _ Et Et'); try discriminate.
    - cbn [map]. rewrite Hw. repeat constructor. cbn. lra.
    - cbn [map]. rewrite Hw, M. reflexivity. }
  injection G' as G'. exact G'.
Qed.
Example C105_returns_ex : exists s', ctc_cn gI 10 [20%nat] 9 (built gI [0; 1]%nat ex_m) = Done s'.
Proof.
  assert (Eu : vexec gI 10 [] (built gI [0; 1]%nat ex_m) = Done (built gI [0; 1]%nat ex_m)) by reflexivity.
  destruct (ex_returns _ _ _ _ _ 20 9 Eu) as (H & _); [discriminate|exact H].
Qed.

Print Assumptions C105_solutions.
Print Assumptions C105_contracts.
Print Assumptions C105_returns.
Print Assumptions C105_stateless.
Print Assumptions C105_reset_refuted.
Print Assumptions C105_external_refuted.
Print Assumptions C105_exception.
