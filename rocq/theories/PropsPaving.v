(** * C42, C43: connected subsets and boxes of pavings *)

From Coq Require Import Reals Lra Lia Bool List Arith NArith Permutation.
Import ListNotations.
From Verif Require Import Itv PropsDyn2 Static PropsStatic Sivia PropsSivia Paving.
Open Scope R_scope.

(** ** Specification *)
Fixpoint cells (p : pav) : list cell := match p with Leaf c => [c] | Node c p1 p2 => c :: cells p1 ++ cells p2 end.
Definition addrs (p : pav) : list nat := map c_addr (cells p).
(** the boxes of the sub-pavings are parts of the box *)
Fixpoint nested (p : pav) : Prop :=
  match p with
  | Leaf _ => True
  | Node c p1 p2 => Forall2 sub (c_box (p_cell p1)) (c_box c) /\ Forall2 sub (c_box (p_cell p2)) (c_box c) /\ nested p1 /\ nested p2
  end.
(** a two-dimensional paving that has not been copied *)
Record paving_ok (p : pav) : Prop := {
  po_addr : NoDup (addrs p);
  po_root : forall c, List.In c (cells p) -> c_root c = c_addr (p_cell p);
  po_nested : nested p;
  po_box : forall c, List.In c (cells p) -> Forall wf (c_box c) /\ length (c_box c) = 2%nat }.
(** a leaf whose value is one of [val] *)
Definition matching (val : N) (p : pav) (c : cell) : Prop := List.In c (leaves p) /\ N.land (c_val c) val <> 0%N.
(** two boxes that share a point *)
Definition touch (a b : cell) : Prop := exists q, inb q (c_box a) /\ inb q (c_box b).
(** a chain of neighbouring matching leaves *)
Inductive linked (val : N) (p : pav) (a : cell) : cell -> Prop :=
| link_refl : matching val p a -> linked val p a a
| link_step : forall b c, linked val p a b -> matching val p c -> touch b c -> linked val p a c.

(** ** Facts *)
Lemma meets_iff a b : meets a b = true <-> N.land a b <> 0%N.
Proof. unfold meets. rewrite negb_true_iff, N.eqb_neq. tauto. Qed.
Lemma touch_sym a b : touch a b -> touch b a.
Proof. intros (q & H1 & H2). exists q. auto. Qed.
Lemma linked_l val p a b : linked val p a b -> matching val p a.
Proof. induction 1; auto. Qed.
Lemma linked_r val p a b : linked val p a b -> matching val p b.
Proof. destruct 1; auto. Qed.
Lemma linked_trans val p a b c : linked val p a b -> linked val p b c -> linked val p a c.
Proof. intros H1 H2. induction H2; auto. eapply link_step; eauto. Qed.
Lemma linked_sym val p a b : linked val p a b -> linked val p b a.
Proof.
  induction 1 as [H|b c L IH M T]; [constructor; auto|].
  apply linked_trans with b; auto. apply link_step with c; [constructor; auto| |apply touch_sym; auto]. eapply linked_r; eauto.
Qed.
Lemma leaves_cells p c : List.In c (leaves p) -> List.In c (cells p).
Proof.
  induction p as [d|d p1 IH1 p2 IH2]; cbn; auto. intros H. right. apply in_or_app. apply in_app_or in H. destruct H; auto.
Qed.
Lemma cell_in p : List.In (p_cell p) (cells p).
Proof. destruct p; left; auto. Qed.
Lemma NoDup_app_l {A} (l m : list A) : NoDup (l ++ m) -> NoDup l.
Proof. induction l; cbn; intros H; constructor; inversion H; subst; auto. intros K. apply H2. apply in_or_app; auto. Qed.
Lemma NoDup_app_r {A} (l m : list A) : NoDup (l ++ m) -> NoDup m.
Proof. induction l; cbn; intros H; auto. inversion H; subst; auto. Qed.
Lemma NoDup_app_disj {A} (l m : list A) x : NoDup (l ++ m) -> List.In x l -> List.In x m -> False.
Proof. induction l; cbn; intros H [].  - subst. inversion H; subst. intros K. apply H2. apply in_or_app; auto. - inversion H; subst. auto. Qed.
Lemma NoDup_app_i {A} (l m : list A) : NoDup l -> NoDup m -> (forall x, List.In x l -> List.In x m -> False) -> NoDup (l ++ m).
Proof.
  induction l; cbn; intros H1 H2 H; auto. inversion H1; subst. constructor.
  - intros K. apply in_app_or in K. destruct K; auto. eapply H; eauto.
  - apply IHl; auto. intros x X1 X2. eapply H; eauto.
Qed.
Lemma leaves_addr p : NoDup (addrs p) -> NoDup (map c_addr (leaves p)).
Proof.
  unfold addrs. induction p as [d|d p1 IH1 p2 IH2]; cbn; auto. intros H. inversion H; subst. clear H. rewrite map_app in *.
  apply NoDup_app_i.
  - apply IH1. eapply NoDup_app_l; eauto.
  - apply IH2. eapply NoDup_app_r; eauto.
  - intros x X1 X2. apply in_map_iff in X1. destruct X1 as (c1 & E1 & C1). apply in_map_iff in X2. destruct X2 as (c2 & E2 & C2).
    refine (NoDup_app_disj _ _ x H3 _ _); [rewrite <- E1|rewrite <- E2]; apply List.in_map; apply leaves_cells; auto.
Qed.
Lemma by_addr (l : list cell) a b : NoDup (map c_addr l) -> List.In a l -> List.In b l -> c_addr a = c_addr b -> a = b.
Proof.
  induction l as [|c l IH]; cbn; intros N Ha Hb E; [destruct Ha|]. inversion N; subst.
  destruct Ha as [->|Ha], Hb as [->|Hb]; auto.
  - exfalso. apply H1. rewrite E. apply List.in_map; auto.
  - exfalso. apply H1. rewrite <- E. apply List.in_map; auto.
Qed.
Lemma NoDup_of_map {A B} (g : A -> B) l : NoDup (map g l) -> NoDup l.
Proof. induction l; cbn; intros H; constructor; inversion H; subst; auto. intros K. apply H2. apply List.in_map; auto. Qed.
Lemma NoDup_filter' {A} (g : A -> bool) l : NoDup l -> NoDup (filter g l).
Proof. induction 1; cbn; [constructor|]. destruct (g x); auto. constructor; auto. intros K. apply filter_In in K. tauto. Qed.

(** the intersection of two boxes *)
Lemma inter_point a b : Forall wf a -> Forall wf b -> length a = length b ->
  b_is_empty (b_inter a b) = false -> exists q, inb q a /\ inb q b.
Proof.
  intros Wa Wb L E. unfold b_inter in E. destruct (b_is_empty a) eqn:Ea; [congruence|].
  destruct (b_is_empty b) eqn:Eb.
  { destruct a as [|i a]; cbn in E; [|discriminate]. destruct b; [discriminate|discriminate]. }
  destruct (existsb is_empty (map2 inter a b)) eqn:Ex.
  { destruct a as [|i a]; cbn in E; [|discriminate]. discriminate. }
  clear E Ea Eb. revert b Wb L Ex. induction Wa as [|i a Wi Wa IH]; intros [|j b] Wb L Ex; try discriminate.
  - exists []. split; constructor.
  - inversion Wb; subst. cbn in Ex. apply orb_false_iff in Ex. destruct Ex as [E1 E2].
    destruct (IH b) as (q & Q1 & Q2); auto.
    assert (G : exists v, In v (inter i j)).
    { assert (W := wf_inter i j). destruct (inter i j) as [|l h]; [discriminate|].
      destruct l as [u|], h as [t|]; cbn in *; [exists u|exists u|exists t|exists 0]; cbn; try lra; auto. }
    destruct G as (v & Hv). apply In_inter in Hv. destruct Hv. exists (v :: q). split; constructor; auto.
Qed.
Lemma point_inter q a b : inb q a -> inb q b -> b_is_empty (b_inter a b) = false.
Proof. intros H1 H2. apply inb_empty with q. apply b_inter_in; auto. Qed.

(** the test that is done on the leaves *)
Definition near_leaf (val : N) (b : box) (c : cell) : bool := meets (c_val c) val && negb (b_is_empty (b_inter b (c_box c))).
Lemma intersecting_leaves val b : Forall wf b -> length b = 2%nat -> forall p, nested p ->
  (forall c, List.In c (cells p) -> Forall wf (c_box c) /\ length (c_box c) = 2%nat) ->
  intersecting val b p = filter (near_leaf val b) (leaves p).
Proof.
  intros Wb Lb. induction p as [c|c p1 IH1 p2 IH2]; intros Hn Hb.
  - cbn. unfold near_leaf. destruct (b_is_empty _); cbn; [rewrite andb_false_r; auto|rewrite andb_true_r; auto].
  - destruct Hn as (S1 & S2 & N1 & N2). cbn [intersecting p_cell leaves]. rewrite filter_app.
    rewrite IH1 by (auto; intros d Hd; apply Hb; right; apply in_or_app; auto).
    rewrite IH2 by (auto; intros d Hd; apply Hb; right; apply in_or_app; auto).
    destruct (b_is_empty (b_inter b (c_box c))) eqn:E; auto.
    (* nothing below *)
    assert (G : forall q, nested q -> Forall2 sub (c_box (p_cell q)) (c_box c) ->
      (forall d, List.In d (cells q) -> Forall wf (c_box d) /\ length (c_box d) = 2%nat) -> filter (near_leaf val b) (leaves q) = []).
    { clear - E Wb Lb. induction q as [d|d q1 IH1 q2 IH2]; intros Hn Hs Hb.
      - cbn. unfold near_leaf. destruct (b_is_empty (b_inter b (c_box d))) eqn:Ed; cbn; [rewrite andb_false_r; auto|].
        destruct (Hb d) as (W & Ld); [left; auto|].
        destruct (inter_point b (c_box d)) as (q & Q1 & Q2); auto; [congruence|].
        rewrite (point_inter q b (c_box c)) in E; [discriminate|auto|]. eapply inb_sub; eauto.
      - destruct Hn as (S1 & S2 & N1 & N2). cbn [leaves]. rewrite filter_app. cbn [p_cell] in Hs.
        rewrite IH1, IH2; auto; try (intros k Hk; apply Hb; right; apply in_or_app; auto); eapply F2_sub_trans; eauto. }
    rewrite G, G; auto; intros d Hd; apply Hb; right; apply in_or_app; auto.
Qed.
Lemma near_leaf_touch val e c : Forall wf (c_box e) -> length (c_box e) = 2%nat -> Forall wf (c_box c) -> length (c_box c) = 2%nat ->
  near_leaf val (c_box e) c = true <-> N.land (c_val c) val <> 0%N /\ touch e c.
Proof.
  intros We Le Wc Lc. unfold near_leaf. rewrite andb_true_iff, negb_true_iff, meets_iff. split; intros [H1 H2]; split; auto.
  - apply inter_point; auto. congruence.
  - destruct H2 as (q & Q1 & Q2). eapply point_inter; eauto.
Qed.

(** ** Flags *)
Lemma fset_same a b f : fset a b f a = b. Proof. unfold fset. rewrite Nat.eqb_refl. auto. Qed.
Lemma fset_other a b f k : k <> a -> fset a b f k = f k. Proof. unfold fset. intros H. apply Nat.eqb_neq in H. rewrite H. auto. Qed.
Lemma fset_true a f k : fset a true f k = true <-> k = a \/ f k = true.
Proof. unfold fset. destruct (Nat.eqb_spec k a); intuition. Qed.
Lemma fold_fset (v : list cell) : forall f k, fold_left (fun f c => fset (c_addr c) true f) v f k = true <-> f k = true \/ exists c, List.In c v /\ c_addr c = k.
Proof.
  induction v as [|c v IH]; intros f k; cbn [fold_left].
  - split; [auto|intros [H|(c & [] & _)]; auto].
  - rewrite IH, fset_true. split.
    + intros [[->|H]|(d & D & E)]; [right; exists c; split; [left|]; auto|auto|right; exists d; split; [right|]; auto].
    + intros [H|(d & [<-|D] & E)]; auto. right. exists d. auto.
Qed.
Lemma reset_false p : forall f, (forall k, f k = false -> reset_flags p f k = false).
Proof.
  induction p as [c|c p1 IH1 p2 IH2]; intros f k H; cbn [reset_flags].
  - unfold fset. destruct (Nat.eqb k _); auto.
  - apply IH2, IH1. unfold fset. destruct (Nat.eqb k _); auto.
Qed.
Lemma reset_leaf p : forall f c, List.In c (leaves p) -> reset_flags p f (c_addr c) = false.
Proof.
  induction p as [d|d p1 IH1 p2 IH2]; intros f c H; cbn [reset_flags leaves] in *.
  - destruct H as [->|[]]. apply fset_same.
  - apply in_app_or in H. destruct H as [H|H]; [apply reset_false; apply IH1; auto|apply IH2; auto].
Qed.
Lemma first_leaf_some val f : forall p c, get_first_leaf val f p = Some c -> matching val p c /\ f (c_addr c) = false.
Proof.
  induction p as [d|d p1 IH1 p2 IH2]; intros c H; cbn in H.
  - destruct (meets (c_val d) val) eqn:M; [|discriminate]. destruct (f (c_addr d)) eqn:F; [discriminate|]. injection H; intros <-.
    split; auto. split; [left; auto|]. apply meets_iff; auto.
  - destruct (get_first_leaf val f p1) as [e|]; [injection H; intros <-; destruct (IH1 e) as [[A B] C]; auto|destruct (IH2 c H) as [[A B] C]];
      (split; auto; split; auto; cbn; apply in_or_app; auto).
Qed.
Lemma first_leaf_none val f : forall p c, get_first_leaf val f p = None -> matching val p c -> f (c_addr c) = true.
Proof.
  induction p as [d|d p1 IH1 p2 IH2]; intros c H [Hc M]; cbn in H, Hc.
  - destruct Hc as [->|[]]. apply meets_iff in M. rewrite M in H. destruct (f (c_addr c)); [auto|discriminate].
  - destruct (get_first_leaf val f p1); [discriminate|]. apply in_app_or in Hc. destruct Hc as [Hc|Hc]; [apply IH1|apply IH2]; auto; split; auto.
Qed.

(** ** The breadth-first search *)
Section Search.
Context (w : list pav) (p : pav) (val : N) (OK : paving_ok p) (HL : lookup (c_addr (p_cell p)) w = Some p).

Lemma leaf_box c : List.In c (leaves p) -> Forall wf (c_box c) /\ length (c_box c) = 2%nat.
Proof. intros H. apply (po_box _ OK). apply leaves_cells; auto. Qed.
Lemma leaf_eq a b : List.In a (leaves p) -> List.In b (leaves p) -> c_addr a = c_addr b -> a = b.
Proof. apply by_addr. apply leaves_addr. apply (po_addr _ OK). Qed.
Lemma neighbours f e : List.In e (leaves p) -> exists v, get_neighbours w val f e = Some v /\ NoDup v /\
  forall c, List.In c v <-> matching val p c /\ touch e c /\ c <> e /\ f (c_addr c) = false.
Proof.
  intros He. destruct (leaf_box e He) as (We & Le). unfold get_neighbours.
  rewrite (po_root _ OK e), HL, Le by (apply leaves_cells; auto). cbn [Nat.eqb].
  eexists. split; [reflexivity|]. rewrite intersecting_leaves by (auto; try apply (po_nested _ OK); try apply (po_box _ OK)).
  split.
  - do 2 apply NoDup_filter'. eapply NoDup_of_map. apply leaves_addr. apply (po_addr _ OK).
  - intros c. rewrite !filter_In. rewrite !andb_true_iff, !negb_true_iff, Nat.eqb_neq, meets_iff. split.
    + intros ((Hc & N1) & ((N2 & M) & F)). destruct (leaf_box c Hc) as (Wc & Lc). apply near_leaf_touch in N1; auto.
      repeat split; auto; try tauto. congruence.
    + intros ((Hc & M) & T & Ne' & F). destruct (leaf_box c Hc) as (Wc & Lc).
      split; [split; auto; apply near_leaf_touch; auto|]. repeat split; auto. intros E. apply Ne'. apply leaf_eq; auto.
Qed.

(** [f0]: the flags before the search, that starts at [a] *)
Lemma search (f0 : flags) (a : cell) : matching val p a -> f0 (c_addr a) = false ->
  (forall b c, matching val p b -> matching val p c -> touch b c -> f0 (c_addr c) = true -> f0 (c_addr b) = true) ->
  forall fuel f items l,
  NoDup (items ++ l) ->
  (forall c, List.In c (items ++ l) -> linked val p a c /\ f0 (c_addr c) = false) ->
  (forall c, matching val p c -> f (c_addr c) = true -> f0 (c_addr c) = true \/ List.In c (items ++ l)) ->
  (forall c, matching val p c -> f0 (c_addr c) = true \/ List.In c items \/ List.In c (tl l) -> f (c_addr c) = true) ->
  (forall e c, List.In e items -> matching val p c -> touch e c -> f (c_addr c) = true) ->
  List.In a (items ++ l) ->
  (length (leaves p) <= length items + fuel)%nat ->
  exists items' f', subset_loop w val fuel f items l = Some (items', f') /\ NoDup items' /\
    (forall c, List.In c items' <-> linked val p a c) /\
    (forall c, matching val p c -> (f' (c_addr c) = true <-> f0 (c_addr c) = true \/ List.In c items')).
Proof.
  intros Ma Fa Cl. induction fuel as [|fuel IH]; intros f items l ND I2 I3 I3' I4 I5 Fu.
  all: assert (Lm : (length (items ++ l) <= length (leaves p))%nat) by
      (apply NoDup_incl_length; auto; intros c Hc; destruct (I2 c Hc) as [H _]; apply linked_r in H; apply H).
  all: destruct l as [|e l].
  2:{ rewrite app_length in Lm. cbn in Lm. lia. }
  1,2: exists items, f; rewrite app_nil_r in *; split; [destruct fuel || idtac; reflexivity|]; split; [auto|]; split.
  1,3: intros c; split; [intros Hc; apply I2; auto|]; intros L; induction L as [_|b c L IHL M T]; [auto|];
       specialize (IHL); assert (F : f (c_addr c) = true) by (eapply I4; eauto); destruct (I3 c M F) as [F0|]; auto;
       exfalso; destruct (I2 b IHL) as [_ F1]; rewrite (Cl b c) in F1; auto; [discriminate|eapply linked_r; eauto].
  1,2: intros c M; split; [apply I3; auto|intros [H|H]; apply I3'; auto].
  (* one step *)
  cbn [subset_loop]. assert (Le : linked val p a e) by (apply I2; apply in_or_app; right; left; auto).
  assert (Me : matching val p e) by (eapply linked_r; eauto).
  destruct (neighbours (fset (c_addr e) true f) e (proj1 Me)) as (v & Ev & NDv & Hv). rewrite Ev.
  cbn [tl] in I3'.
  assert (Nm : forall c, List.In c v -> ~ List.In c (items ++ e :: l)).
  { intros c Hc K. apply Hv in Hc. destruct Hc as (Mc & _ & Ne & F). rewrite fset_other in F.
    2:{ intros E. apply Ne. apply leaf_eq; auto; [apply Mc|apply Me]. }
    rewrite I3' in F; [discriminate|auto|]. apply in_app_or in K. destruct K as [K|[K|K]]; auto; congruence. }
  destruct (IH (fold_left (fun f c => fset (c_addr c) true f) v (fset (c_addr e) true f)) (items ++ [e]) (l ++ v)) as (items' & f' & E & R).
  - rewrite <- !app_assoc. cbn [app]. replace (items ++ e :: l ++ v) with ((items ++ e :: l) ++ v) by (rewrite <- app_assoc; auto).
    apply NoDup_app_i; auto. intros x X1 X2. apply (Nm x); auto.
  - intros c Hc. rewrite <- app_assoc in Hc. cbn [app] in Hc. replace (items ++ e :: l ++ v) with ((items ++ e :: l) ++ v) in Hc by (rewrite <- app_assoc; auto).
    apply in_app_or in Hc. destruct Hc as [Hc|Hc]; [apply I2; auto|]. assert (Hc' := Hc). apply Hv in Hc. destruct Hc as (Mc & T & Ne & F).
    split; [eapply link_step; eauto|]. destruct (f0 (c_addr c)) eqn:F0; auto. exfalso.
    rewrite fset_other in F by (intros E; apply Ne; apply leaf_eq; auto; [apply Mc|apply Me]). rewrite I3' in F; auto; discriminate.
  - intros c M F. apply fold_fset in F. rewrite <- app_assoc. cbn [app]. replace (items ++ e :: l ++ v) with ((items ++ e :: l) ++ v) by (rewrite <- app_assoc; auto).
    destruct F as [F|(d & D & E)].
    + apply fset_true in F. destruct F as [E|F].
      * right. assert (c = e) by (apply leaf_eq; auto; [apply M|apply Me]). subst c. apply in_or_app. left. apply in_or_app. right. left. auto.
      * destruct (I3 c M F); auto. right. apply in_or_app. auto.
    + right. apply in_or_app. right. assert (Hd := D). apply Hv in Hd. destruct Hd as (Md & _).
      assert (d = c) by (apply leaf_eq; auto; [apply Md|apply M]). subst d. auto.
  - intros c M H. apply fold_fset. destruct H as [H|[H|H]].
    + left. apply fset_true. right. apply I3'; auto.
    + apply in_app_or in H. destruct H as [H|[H|[]]]; left; apply fset_true; [right; apply I3'; auto|left; congruence].
    + assert (H' : List.In c (l ++ v)) by (destruct (l ++ v); [destruct H|right; auto]). apply in_app_or in H'.
      destruct H' as [H'|H']; [left; apply fset_true; right; apply I3'; auto|right; exists c; auto].
  - intros e' c He' M T. apply fold_fset. apply in_app_or in He'. destruct He' as [He'|[<-|[]]].
    + left. apply fset_true. right. eapply I4; eauto.
    + destruct (fset (c_addr e) true f (c_addr c)) eqn:F; auto. right. exists c. split; auto. apply Hv. repeat split; auto; try apply M.
      intros ->. rewrite fset_same in F. discriminate.
  - rewrite <- app_assoc. cbn [app]. apply in_app_or in I5. apply in_or_app. destruct I5 as [I5|[I5|I5]]; auto; right; [left; auto|right; apply in_or_app; auto].
  - rewrite app_length. cbn. lia.
  - exists items', f'. split; auto.
Qed.

Lemma all_searches : forall fuel1 fuel2 f res, (length (leaves p) <= fuel2)%nat -> NoDup (concat res) ->
  (forall c, matching val p c -> (f (c_addr c) = true <-> List.In c (concat res))) ->
  (forall c, List.In c (concat res) -> matching val p c) ->
  (forall s a b, List.In s res -> List.In a s -> (List.In b s <-> linked val p a b)) ->
  Forall (fun s => s <> []) res ->
  (length (leaves p) <= length (concat res) + fuel1)%nat ->
  exists res', subsets_loop w p val fuel1 fuel2 f res = Some res' /\ NoDup (concat res') /\
    (forall c, List.In c (concat res') <-> matching val p c) /\
    (forall s a b, List.In s res' -> List.In a s -> (List.In b s <-> linked val p a b)) /\ Forall (fun s => s <> []) res'.
Proof.
  induction fuel1 as [|fuel1 IH]; intros fuel2 f res Fu2 ND O2 O4 O3 Os Fu.
  all: destruct (get_first_leaf val f p) as [a|] eqn:E; cbn [subsets_loop]; rewrite E.
  2,4: exists res; refine (conj eq_refl (conj ND (conj _ (conj O3 Os)))); intros c; split; [apply O4|];
       intros Hc; apply O2; auto; eapply first_leaf_none; eauto.
  - exfalso. apply first_leaf_some in E. destruct E as [Ma Fa].
    assert (H : (length (a :: concat res) <= length (leaves p))%nat).
    { apply NoDup_incl_length.
      - constructor; auto. intros K. apply O2 in K; auto. congruence.
      - intros c [<-|Hc]; [apply Ma|apply O4; auto]. }
    cbn in H. lia.
  - apply first_leaf_some in E. destruct E as [Ma Fa].
    destruct (search f a Ma Fa) with (fuel := fuel2) (f := f) (items := @nil cell) (l := [a]) as (items & f' & Es & NDi & Hi & Hf).
    + intros b c Mb Mc T Fc. apply O2 in Fc; auto. apply O2; auto. apply in_concat in Fc. destruct Fc as (s & Hs & Hc).
      apply in_concat. exists s. split; auto. apply (O3 s c b); auto. apply link_step with c; auto; [constructor; auto|apply touch_sym; auto].
    + cbn. constructor; [intros []|constructor].
    + intros c [<-|[]]. split; auto. constructor; auto.
    + intros c Mc Fc. auto.
    + intros c Mc [H|[[]|[]]]; auto.
    + intros e c [].
    + left; auto.
    + cbn. lia.
    + rewrite Es.
      assert (Ha : List.In a items) by (apply Hi; constructor; auto).
      apply IH; auto.
      * rewrite concat_app. cbn. rewrite app_nil_r. apply NoDup_app_i; auto.
        intros x X1 X2. assert (Mx : matching val p x) by (apply O4; auto). apply Hi in X2.
        assert (~ List.In a (concat res)) by (intros K; apply O2 in K; auto; congruence). apply H.
        apply in_concat in X1. destruct X1 as (s & Hs & Hx). apply in_concat. exists s. split; auto. apply (O3 s x a); auto. apply linked_sym; auto.
      * intros c Mc. rewrite concat_app, in_app_iff. cbn. rewrite app_nil_r. rewrite Hf by auto. rewrite O2 by auto. tauto.
      * intros c Hc. rewrite concat_app in Hc. apply in_app_or in Hc. cbn in Hc. rewrite app_nil_r in Hc. destruct Hc as [Hc|Hc]; auto.
        apply Hi in Hc. eapply linked_r; eauto.
      * intros s b c Hs Hb. apply in_app_or in Hs. destruct Hs as [Hs|[<-|[]]]; auto. apply Hi in Hb. rewrite Hi. split; intros L.
        -- apply linked_trans with a; auto. apply linked_sym; auto.
        -- apply linked_trans with b; auto.
      * apply Forall_app. split; auto. constructor; auto. intros ->. destruct Ha.
      * rewrite concat_app, app_length. cbn. rewrite app_nil_r. destruct items; [destruct Ha|]. cbn. lia.
Qed.
End Search.

Theorem C42 : forall w p val fuel f, paving_ok p -> lookup (c_addr (p_cell p)) w = Some p -> (length (leaves p) <= fuel)%nat ->
  exists res, get_connected_subsets w p val fuel f = Some res /\
    NoDup (concat res) /\ (forall c, List.In c (concat res) <-> matching val p c) /\
    (forall s a b, List.In s res -> List.In a s -> (List.In b s <-> linked val p a b)) /\
    Forall (fun s => s <> []) res.
Proof.
  intros w p val fuel f OK HL Fu. unfold get_connected_subsets.
  apply all_searches; auto.
  - constructor.
  - intros c [Hc M]. rewrite reset_leaf by auto. split; [discriminate|intros []].
  - intros c [].
  - intros s a b [].
Qed.

(** ** Boxes *)
Theorem C43_default : forall val p, get_boxes val V_DEFAULT p = Some (map c_box (filter (fun c => meets (c_val c) val) (leaves p))).
Proof.
  intros val p. unfold get_boxes. assert (E : meets val V_DEFAULT = false) by (unfold meets, V_DEFAULT; rewrite N.land_0_r; auto). rewrite E. f_equal.
  induction p as [c|c p1 IH1 p2 IH2].
  - cbn. destruct (meets (c_val c) val); auto.
  - cbn. rewrite filter_app, map_app, IH1, IH2. auto.
Qed.
(** The values of the nodes that are not leaves are taken into account: the result is exact when they tell whether there
    are matching leaves below. *)
Fixpoint told (val neg_val : N) (p : pav) : Prop :=
  match p with
  | Leaf _ => True
  | Node c p1 p2 => (N.land (c_val c) neg_val <> 0%N -> N.land (c_val c) val = 0%N -> forall d, ~ matching val p d) /\
                    told val neg_val p1 /\ told val neg_val p2
  end.
Theorem C43_partial : forall val neg_val p, N.land val neg_val = 0%N -> told val neg_val p ->
  get_boxes val neg_val p = Some (map c_box (filter (fun c => meets (c_val c) val) (leaves p))).
Proof.
  intros val neg_val p E T. unfold get_boxes. unfold meets at 1. rewrite E. cbn. f_equal.
  induction p as [c|c p1 IH1 p2 IH2].
  - cbn. destruct (meets (c_val c) val) eqn:M; cbn; [rewrite andb_false_r; auto|]. destruct (_ && _)%bool; auto.
  - destruct T as (T0 & T1 & T2). cbn. rewrite filter_app, map_app, IH1, IH2 by auto.
    destruct (negb (neg_val =? V_DEFAULT)%N && meets (c_val c) neg_val && negb (meets (c_val c) val))%bool eqn:C; auto.
    apply andb_true_iff in C. destruct C as [C C3]. apply andb_true_iff in C. destruct C as [_ C2]. apply meets_iff in C2.
    apply negb_true_iff in C3. unfold meets in C3. apply negb_false_iff, N.eqb_eq in C3.
    specialize (T0 C2 C3). rewrite <- map_app, <- filter_app.
    destruct (filter _ (leaves p1 ++ leaves p2)) as [|d l] eqn:F; auto. exfalso.
    assert (H : List.In d (filter (fun c => meets (c_val c) val) (leaves p1 ++ leaves p2))) by (rewrite F; left; auto).
    apply filter_In in H. destruct H as [H1 H2]. apply (T0 d). split; auto. apply meets_iff; auto.
Qed.
