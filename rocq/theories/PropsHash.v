(** * C32: keys of the contractors of a network *)

From Coq Require Import List Arith Bool Lia.
Import ListNotations.
From Verif Require Import Hash.

(** ** Specification *)
(** A layout of the memory: which addresses are those of domains and of contractor objects.  Objects alive at
    the same time have distinct addresses, and the codes 0-4 are not addresses. *)
Record layout := mkLayout { is_dom : nat -> Prop; is_ctc : nat -> Prop;
  distinct : forall a, is_dom a -> is_ctc a -> False;
  dom_addr : forall a, is_dom a -> 4 < a; ctc_addr : forall a, is_ctc a -> 4 < a }.
Definition obj (k : kind) : option nat :=
  match k with KIbex a | KEval a | KDeriv a | KDist a | KDyn a | KCn a => Some a | _ => None end.
Definition lives (L : layout) (d : desc) : Prop :=
  (forall a, In a (d_doms d) -> is_dom L a) /\ (forall a, obj (d_kind d) = Some a -> is_ctc L a) /\
  (forall a, d_kind d <> KCn a).
(** The contractor a user means: its class and, for the classes compared by object, the object; and its domains. *)
Definition same_kind (k l : kind) : Prop :=
  match k, l with
  | KEquality, KEquality | KComponent, KComponent | KEval _, KEval _ | KDeriv _, KDeriv _ | KDist _, KDist _ => True
  | (KIbex a | KDyn a), (KIbex b | KDyn b) => a = b
  | _, _ => False
  end.
Definition same (d e : desc) : Prop := d_doms d = d_doms e /\ same_kind (d_kind d) (d_kind e).
(** the codes separate the classes and the objects *)
Lemma code_same L d e : lives L d -> lives L e -> (code (d_kind d) = code (d_kind e) <-> same_kind (d_kind d) (d_kind e)).
Proof.
  intros (_ & Hd & Nd) (_ & He & Ne).
  assert (A : forall k a, (forall x, obj k = Some x -> is_ctc L x) -> obj k = Some a -> 4 < a) by (intros k a H E; apply (ctc_addr L), H, E).
  destruct (d_kind d) as [| |x|x|x|x|x|x] eqn:Ed; try (exfalso; apply (Nd x); reflexivity);
    destruct (d_kind e) as [| |y|y|y|y|y|y] eqn:Ee; try (exfalso; apply (Ne y); reflexivity);
    cbn [code same_kind]; try tauto;
    try (pose proof (A _ x Hd eq_refl)); try (pose proof (A _ y He eq_refl)); lia.
Qed.

Lemma key_some L d : lives L d -> key_of d = mkKey (Some (length (d_doms d) + 1)) (d_doms d ++ [code (d_kind d)]).
Proof. intros (_ & _ & H). unfold key_of. destruct (d_kind d); auto. destruct (H addr); auto. Qed.

Lemma words_irrefl n : forall p, words_lt n p p = false.
Proof. induction n as [|n IH]; intros [|x p]; cbn; auto. rewrite Nat.eqb_refl. auto. Qed.
Lemma words_cut n : forall p q, length p <= n \/ length q <= n -> words_lt n p q = words_lt (Nat.min (length p) (length q)) p q.
Proof.
  induction n as [|n IH]; intros [|x p] [|y q] H; cbn in *; auto; try lia. destruct (Nat.eqb x y); auto. apply IH; lia.
Qed.
Definition wlt (p q : list nat) : bool := words_lt (Nat.min (length p) (length q)) p q.
Lemma wlt_cons x p y q : wlt (x :: p) (y :: q) = if Nat.eqb x y then wlt p q else Nat.ltb x y.
Proof. reflexivity. Qed.
Lemma wlt_trans : forall p q r, wlt p q = true -> wlt q r = true -> wlt p r = true.
Proof.
  induction p as [|x p IH]; intros [|y q] [|z r]; try discriminate. rewrite !wlt_cons.
  destruct (Nat.eqb_spec x y) as [->|Hxy]; destruct (Nat.eqb_spec y z) as [->|Hyz]; intros H1 H2.
  - rewrite ?Nat.eqb_refl. apply (IH q); auto.
  - destruct (Nat.eqb_spec y z); [contradiction|auto].
  - destruct (Nat.eqb_spec x z); [contradiction|auto].
  - apply Nat.ltb_lt in H1, H2. destruct (Nat.eqb_spec x z); [lia|]. apply Nat.ltb_lt. lia.
Qed.
Lemma wlt_equiv_prefix : forall p q, wlt p q = false -> wlt q p = false ->
  firstn (Nat.min (length p) (length q)) p = firstn (Nat.min (length p) (length q)) q.
Proof.
  induction p as [|x p IH]; intros [|y q]; cbn [length Nat.min firstn]; auto. rewrite !wlt_cons.
  destruct (Nat.eqb_spec x y) as [->|Hxy].
  - rewrite Nat.eqb_refl. intros H1 H2. f_equal. auto.
  - destruct (Nat.eqb_spec y x); [congruence|]. intros H1 H2. apply Nat.ltb_ge in H1, H2. lia.
Qed.
Lemma key_lt_words L d e : lives L d -> lives L e ->
  key_lt (key_of d) (key_of e) = Some (wlt (d_doms d ++ [code (d_kind d)]) (d_doms e ++ [code (d_kind e)])).
Proof.
  intros Hd He. unfold key_lt. rewrite (key_some L d Hd), (key_some L e He). cbn [k_n k_ptr].
  f_equal. unfold wlt. rewrite !app_length. reflexivity.
Qed.
Lemma code_not_dom L d a : lives L d -> is_dom L a -> code (d_kind d) <> a.
Proof.
  intros (_ & H & Hc) Ha E. pose proof (dom_addr L a Ha).
  destruct (d_kind d) eqn:Ek; cbn in *; try lia; subst; apply (distinct L a Ha); apply H; auto.
Qed.
(** no key is a strict prefix of another *)
Lemma no_prefix L : forall p q d e, lives L d -> lives L e -> (forall a, In a p -> is_dom L a) -> (forall a, In a q -> is_dom L a) ->
  let u := p ++ [code (d_kind d)] in let v := q ++ [code (d_kind e)] in
  firstn (Nat.min (length u) (length v)) u = firstn (Nat.min (length u) (length v)) v -> u = v.
Proof.
  induction p as [|x p IH]; intros [|y q] d e Hd He Hp Hq; cbn.
  - intros E. injection E as E. congruence.
  - intros E. assert (E0 : code (d_kind d) = y) by congruence. exfalso. apply (code_not_dom L d y); auto. apply Hq. left; auto.
  - intros E. assert (E0 : code (d_kind e) = x) by congruence. exfalso. apply (code_not_dom L e x); auto. apply Hp. left; auto.
  - intros E. injection E as E1 E2. subst y. f_equal. apply (IH q d e); auto; intros a Ha; [apply Hp|apply Hq]; right; auto.
Qed.

(** C32: on the keys of contractors that are not sub-networks, the comparison is a strict order whose
    equivalence is the equality of the keys, i.e. [std::map] works as specified. *)
Theorem C32_order_partial : forall L,
  (forall d, lives L d -> key_lt (key_of d) (key_of d) = Some false) /\
  (forall d e f, lives L d -> lives L e -> lives L f ->
     key_lt (key_of d) (key_of e) = Some true -> key_lt (key_of e) (key_of f) = Some true -> key_lt (key_of d) (key_of f) = Some true) /\
  (forall d e, lives L d -> lives L e -> (key_equiv (key_of d) (key_of e) = true <-> same d e)).
Proof.
  intros L. split; [|split].
  - intros d Hd. rewrite (key_lt_words L) by auto. unfold wlt. rewrite words_irrefl. auto.
  - intros d e f Hd He Hf. rewrite !(key_lt_words L) by auto. intros E1 E2. injection E1 as E1. injection E2 as E2. f_equal.
    eapply wlt_trans; eauto.
  - intros d e Hd He. unfold key_equiv. rewrite !(key_lt_words L) by auto. split.
    + destruct (wlt _ _) eqn:E1; [discriminate|]. destruct (wlt (d_doms e ++ _) _) eqn:E2; [discriminate|]. intros _.
      pose proof (wlt_equiv_prefix _ _ E1 E2) as E.
      apply (no_prefix L (d_doms d) (d_doms e) d e Hd He (proj1 Hd) (proj1 He)) in E.
      apply app_inj_tail in E as [E3 E4]. split; [exact E3|]. apply (code_same L d e Hd He), E4.
    + intros (E1 & E2). apply (code_same L d e Hd He) in E2. rewrite E1, E2. unfold wlt. rewrite !words_irrefl. auto.
Qed.

Lemma find_in L k m d : (forall e, In e m -> fst e = key_of (snd e) /\ lives L (snd e)) -> find k m = Some d ->
  exists e, In e m /\ snd e = d /\ key_equiv k (fst e) = true.
Proof.
  intros Hm. unfold find. destruct (List.find _ m) as [e|] eqn:E; [|discriminate]. cbn. intros Ed. injection Ed as <-.
  apply find_some in E. exists e. tauto.
Qed.

Definition pairwise_different (m : cmap) : Prop := ForallOrdPairs (fun a b => ~ same (snd a) (snd b)) m.
(** C32: whatever the sequence of additions (sub-networks excepted), each added contractor has exactly one
    representative in the network: a contractor on the same domains with the same class or object. *)
Theorem C32_add_partial : forall L l, (forall d, In d l -> lives L d) ->
  let m := add_all l [] in
  (forall d, In d l -> exists e, In (key_of e, e) m /\ same d e) /\
  (forall k e, In (k, e) m -> In e l /\ k = key_of e) /\
  pairwise_different m.
Proof.
  intros L l Hl. cbn zeta.
  enough (G : forall l0 m, (forall d, In d l0 -> lives L d) ->
    (forall k e, In (k, e) m -> lives L e /\ k = key_of e) -> pairwise_different m ->
    (forall x, In x m -> In x (add_all l0 m)) /\
    (forall d, In d l0 -> exists e, In (key_of e, e) (add_all l0 m) /\ same d e) /\
    (forall k e, In (k, e) (add_all l0 m) -> (In (k, e) m \/ In e l0) /\ k = key_of e) /\
    pairwise_different (add_all l0 m)).
  { destruct (G l [] Hl) as (_ & G1 & G2 & G3); [intros k e []|constructor|]. split; [auto|split; [|auto]].
    intros k e He. destruct (G2 k e He) as [[[]|H1] H2]. auto. }
  clear l Hl. induction l0 as [|d l0 IH]; intros m Hl Hm Hp.
  { unfold add_all; cbn [fold_left]. split; [auto|split; [intros d []|split; [|auto]]]. intros k e He. split; auto. apply (Hm k e He). }
  assert (Hd : lives L d) by (apply Hl; left; auto).
  change (add_all (d :: l0) m) with (add_all l0 (add d m)).
  assert (Hfm : forall e, In e m -> fst e = key_of (snd e) /\ lives L (snd e)).
  { intros [k e] He. destruct (Hm k e He). auto. }
  unfold add. destruct (find (key_of d) m) as [e|] eqn:Ef.
  - destruct (find_in L _ _ _ Hfm Ef) as ([k e'] & H1 & H2 & H3). cbn in H2, H3. subst e'.
    destruct (Hm k e H1) as (He & ->). apply (proj2 (proj2 (C32_order_partial L))) in H3; auto.
    destruct (IH m) as (I1 & I2 & I3 & I4); auto. { intros x Hx. apply Hl. right; auto. }
    split; [auto|split; [|split; [|auto]]].
    + intros x [<-|Hx]; auto. exists e. auto.
    + intros k' e' He'. destruct (I3 _ _ He') as [[H5|H5] H6]; split; auto. right; right; auto.
  - assert (Hnew : forall e, In e m -> ~ same d (snd e)).
    { intros [k e] He Hs. unfold find in Ef. destruct (List.find _ m) eqn:E; [discriminate|].
      pose proof (find_none _ _ E _ He) as E'. cbn in E', Hs. destruct (Hm k e He) as (Hle & ->).
      apply (proj2 (proj2 (C32_order_partial L))) in Hs; auto. congruence. }
    destruct (IH ((key_of d, d) :: m)) as (I1 & I2 & I3 & I4).
    { intros x Hx. apply Hl. right; auto. }
    { intros k e [E|He]; [injection E as <- <-; auto|apply (Hm k e He)]. }
    { constructor; auto. apply Forall_forall. intros x Hx. cbn. auto. }
    split; [|split; [|split; [|auto]]].
    + intros x Hx. apply I1. right; auto.
    + intros x [<-|Hx]; auto. exists d. split; [apply I1; left; auto|]. split; [reflexivity|]. apply (code_same L d d Hd Hd). reflexivity.
    + intros k e He. destruct (I3 k e He) as [[[E|H5]|H5] H6]; split; auto.
      * injection E as <- <-. right; left; auto.
      * right; right; auto.
Qed.

(** *** A layout and contractors that satisfy the hypotheses *)
Definition ex_layout : layout.
Proof.
  refine (mkLayout (fun a => 100 <= a < 200) (fun a => 200 <= a < 300) _ _ _); intros; lia.
Defined.
Definition a1 := mkDesc (KIbex 200) [100; 108].
Definition a2 := mkDesc (KIbex 200) [100].
Definition a3 := mkDesc KEquality [100; 108].
Definition a4 := mkDesc (KDeriv 216) [100; 108].
Example C32_example : (forall d, In d [a1; a2; a3; a1; a4; a2] -> lives ex_layout d) /\
  length (add_all [a1; a2; a3; a1; a4; a2] []) = 4.
Proof.
  split; [|reflexivity]. intros d Hd. repeat destruct Hd as [<-|Hd]; try contradiction;
    (split; [cbn; intros a Ha; repeat destruct Ha as [<-|Ha]; try contradiction; lia|split; [cbn; intros a Ha; try discriminate; injection Ha as <-; lia|cbn; discriminate]]).
Qed.

(** C32 fails for dynamic contractors of the classes CtcEval, CtcDeriv and CtcDist: two objects of such a
    class with different settings added on the same domains get the same key, and the second one is dropped. *)
Theorem C32_objects_refuted : exists L d e, lives L d /\ lives L e /\ obj (d_kind d) <> obj (d_kind e) /\ d_doms d = d_doms e /\
  add_all [d; e] [] = [(key_of d, d)].
Proof.
  exists ex_layout, (mkDesc (KEval 200) [100; 108; 116; 124]), (mkDesc (KEval 208) [100; 108; 116; 124]).
  assert (G : forall a, 200 <= a < 300 -> lives ex_layout (mkDesc (KEval a) [100; 108; 116; 124])).
  { intros a Ha. split; [cbn; intros x Hx; repeat destruct Hx as [<-|Hx]; try contradiction; lia|].
    split; [cbn; intros x Hx; injection Hx as <-; lia|cbn; discriminate]. }
  split; [apply G; lia|]. split; [apply G; lia|]. split; [cbn; discriminate|]. split; reflexivity.
Qed.
(** C32 fails for sub-networks: the number of words of their key is never initialised, hence the result of
    a comparison with any other key is undefined. *)
Theorem C32_subnetwork_refuted : forall a doms d, key_lt (key_of (mkDesc (KCn a) doms)) (key_of d) = None /\ key_lt (key_of d) (key_of (mkDesc (KCn a) doms)) = None.
Proof. intros. unfold key_lt, key_of. cbn. destruct (d_kind d); auto. Qed.
(** Without the hypothesis on the layout, the equivalence used by [std::map] is not transitive and distinct
    contractors are identified: a contractor object whose address is later that of a domain. *)
Theorem C32_layout_refuted : exists d e f, key_equiv (key_of d) (key_of e) = true /\ key_equiv (key_of e) (key_of f) = true /\
  key_equiv (key_of d) (key_of f) = false /\ add_all [e; d; f] [] = [(key_of e, e)].
Proof.
  exists (mkDesc (KIbex 300) [100; 200]), (mkDesc (KIbex 200) [100]), (mkDesc (KIbex 301) [100; 200]). repeat split.
Qed.

Print Assumptions C32_order_partial.
Print Assumptions C32_add_partial.
Print Assumptions C32_objects_refuted.
Print Assumptions C32_subnetwork_refuted.
Print Assumptions C32_layout_refuted.
