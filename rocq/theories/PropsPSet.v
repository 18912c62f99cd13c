(** * The pavings of SepPaving: Sivia, Reunite and isInside (C91) *)

From Coq Require Import Reals Lra Lia Bool List Arith Classical_Prop.
Import ListNotations.
From Verif Require Import Itv PropsDyn2 Tube TubeFacts Static PropsStatic Sivia PropsSivia PropsSiviaTerm Concrete PropsSiviaEx
  Paving PropsPaving3 Separators PropsSep PropsSep2 SepProj PropsSepProj PropsSepProj2 PSet.
Open Scope R_scope.

(** ** Specification *)
(** What is expected of a separator of the set [S] *)
Record psep (N : nat) (S : list R -> Prop) (sep : sep_t) : Prop := {
  p_keep_in : forall a b p, good N a -> good N b -> inb p a -> ~ S p -> inb p (fst (sep a b));
  p_keep_out : forall a b p, good N a -> good N b -> inb p b -> S p -> inb p (snd (sep a b));
  p_good : forall a b, good N a -> good N b -> good N (fst (sep a b)) /\ good N (snd (sep a b));
  p_sub : forall a b p, good N a -> good N b -> (inb p (fst (sep a b)) -> inb p a) /\ (inb p (snd (sep a b)) -> inb p b) }.
(** the boundary of [S] *)
Definition bdry (S : list R -> Prop) (p : list R) : Prop := limit S p /\ limit (fun q => ~ S q) p.
(** a separator that removes no point of the boundary, neither from x_in nor from x_out *)
Definition keeps_bdry (N : nat) (S : list R -> Prop) (sep : sep_t) : Prop := forall a b p, good N a -> good N b -> bdry S p ->
  (inb p a -> inb p (fst (sep a b))) /\ (inb p b -> inb p (snd (sep a b))).
(** What is expected of IntervalVector::diff: boxes that cover x0 \ x, made of limits of points of x0 \ x *)
Definition pdiff_lim (n : nat) (diff : box -> box -> list box) : Prop := pdiff n diff /\
  forall x0 x d p, good n x0 -> good n x -> (forall p, inb p x -> inb p x0) -> List.In d (diff x0 x) -> inb p d -> limit (fun q => inb q x0 /\ ~ inb q x) p.
(** a call to Sivia (with its bisector, its separator, its precision) or to Reunite *)
Inductive ps_op : Type := OSivia (bis : box -> option (box * box)) (sep : sep_t) (eps : R) (fuel : nat) | OReunite.
Fixpoint ps_run (diff : box -> box -> list box) (l : list ps_op) (n : psn) : option psn :=
  match l with
  | [] => Some n
  | OSivia bis sep eps fuel :: l => match ps_sivia bis sep eps fuel n with Some n => ps_run diff l n | None => None end
  | OReunite :: l => match ps_reunite diff n with Some (_, n) => ps_run diff l n | None => None end
  end.
(** the separators given to Sivia are those of [S] *)
Definition op_ok (N : nat) (S : list R -> Prop) (o : ps_op) : Prop :=
  match o with OSivia bis sep _ _ => pbis N bis /\ psep N S sep | OReunite => True end.
Definition op_bd (N : nat) (S : list R -> Prop) (o : ps_op) : Prop :=
  match o with OSivia _ sep _ _ => keeps_bdry N S sep | OReunite => True end.
Definition is_sivia (o : ps_op) : Prop := match o with OSivia _ _ _ _ => True | OReunite => False end.
(** the answers of isInside are right: for the points of the initial box [E], YES in [S], NO out of [S], never EMPTY;
    EMPTY for the other points *)
Definition reliable (S : list R -> Prop) (E : box) (n : psn) : Prop := forall p,
  (inb p E -> match ps_inside n p with BYes => S p | BNo => ~ S p | BMaybe => True | BEmpty => False end) /\
  (~ inb p E -> ps_inside n p = BEmpty).

(** ** Points of boxes *)
Lemma b_contains_ok : forall x p, b_contains x p = true <-> inb p x.
Proof.
  induction x as [|i x IH]; intros [|v p]; cbn; split; intros H; try discriminate; try (inversion H; fail); [constructor|auto| |].
  - apply andb_true_iff in H. destruct H as [H K]. constructor; [apply contains_true; auto|apply IH; auto].
  - inversion H; subst. apply andb_true_iff. split; [apply contains_true; auto|apply IH; auto].
Qed.
Lemma b_contains_no x p : b_contains x p = false <-> ~ inb p x.
Proof. rewrite <- b_contains_ok. destruct (b_contains x p); split; intros; congruence. Qed.

(** the segment between two points *)
Definition lerp (t : R) (p q : list R) : list R := map (fun c => fst c + t * (snd c - fst c)) (combine p q).
Lemma lerp_0 : forall p q, length p = length q -> lerp 0 p q = p.
Proof. unfold lerp. induction p as [|v p IH]; intros [|u q] L; try discriminate L; cbn; auto. f_equal; [lra|]. apply IH. cbn in L. lia. Qed.
Lemma lerp_1 : forall p q, length p = length q -> lerp 1 p q = q.
Proof. unfold lerp. induction p as [|v p IH]; intros [|u q] L; try discriminate L; cbn; auto. f_equal; [lra|]. apply IH. cbn in L. lia. Qed.
Lemma lerp_box t p q x : 0 <= t <= 1 -> inb p x -> inb q x -> inb (lerp t p q) x.
Proof.
  intros T H. revert q. unfold lerp. induction H as [|v i p x Hv H IH]; intros q K; inversion K as [|u ? q' ? Hu K']; subst; cbn; constructor; [|apply IH; auto].
  destruct (Rle_dec v u); [apply (In_convex v _ u)|apply (In_convex u _ v)]; auto; nra.
Qed.
Lemma lerp_near p q : exists K, 0 < K /\ forall t s eps, Rabs (t - s) * K < eps -> near eps (lerp t p q) (lerp s p q).
Proof.
  unfold lerp. revert q. induction p as [|v p IH]; intros [|u q]; try (exists 1; split; [lra|]; intros; constructor; fail). destruct (IH q) as (K & K0 & H). exists (K + Rabs (u - v)).
  assert (A := Rabs_pos (u - v)). split; [lra|]. intros t s eps L. assert (B := Rabs_pos (t - s)). cbn. constructor.
  - cbn. replace (v + t * (u - v) - (v + s * (u - v))) with ((t - s) * (u - v)) by lra. rewrite Rabs_mult. nra.
  - apply H. nra.
Qed.
(** a segment from [S] to the complement of [S] meets the boundary *)
Lemma seg_bdry (S : list R -> Prop) p q : length p = length q -> S p -> ~ S q -> exists t, 0 <= t <= 1 /\ bdry S (lerp t p q).
Proof.
  intros L Sp Sq. set (A := fun t => 0 <= t <= 1 /\ S (lerp t p q)).
  destruct (completeness A) as (m & U & B).
  - exists 1. intros t [H _]. lra.
  - exists 0. split; [lra|]. rewrite lerp_0; auto.
  - assert (M0 : 0 <= m) by (apply U; split; [lra|rewrite lerp_0; auto]). assert (M1 : m <= 1) by (apply B; intros t [H _]; lra).
    destruct (lerp_near p q) as (K & K0 & NK). exists m. split; [lra|]. split; intros eps He.
    + assert (P : 0 < eps / K) by (apply Rdiv_lt_0_compat; auto). apply NNPP. intros N.
      assert (m <= m - eps / K); [|lra]. apply B. intros t At. assert (T := U t At). apply Rnot_lt_le. intros H. apply N. exists (lerp t p q). split; [apply At|].
      apply NK. rewrite Rabs_pos_eq by lra. apply Rmult_lt_reg_r with (/ K); [apply Rinv_0_lt_compat; auto|]. replace ((m - t) * K * / K) with (m - t) by (field; lra). unfold Rdiv in H. lra.
    + destruct (Req_dec m 1) as [->|M]; [exists q; split; auto; rewrite lerp_1 by auto; apply near_refl; auto|].
      assert (P : 0 < eps / K) by (apply Rdiv_lt_0_compat; auto). set (t := m + Rmin (eps / K / 2) (1 - m)).
      assert (T : m < t <= 1 /\ t - m <= eps / K / 2). { unfold t, Rmin. destruct (Rle_dec _ _); lra. }
      exists (lerp t p q). split; [intros H; assert (t <= m) by (apply U; split; auto; lra); lra|]. apply NK. rewrite Rabs_minus_sym, Rabs_pos_eq by lra.
      apply Rmult_lt_reg_r with (/ K); [apply Rinv_0_lt_compat; auto|]. replace ((t - m) * K * / K) with (t - m) by (field; lra). unfold Rdiv in T. unfold Rdiv in P. lra.
Qed.
Lemma bdry_compl (S : list R -> Prop) p : bdry S p -> bdry (fun q => ~ S q) p.
Proof. intros [A B]. split; auto. intros eps He. destruct (A eps He) as (q & Q1 & Q2). exists q. auto. Qed.

(** ** Half-spaces *)
Inductive hsp : Type := HAll | HLe (k : nat) (c : R) | HGe (k : nat) (c : R).
Definition inH (h : hsp) (p : list R) : Prop := match h with HAll => True | HLe k c => nth k p 0 <= c | HGe k c => c <= nth k p 0 end.
Definition okH (N : nat) (h : hsp) : Prop := match h with HAll => True | HLe k _ | HGe k _ => (k < N)%nat end.
Lemma nth_lerp : forall p q k t, length p = length q -> nth k (lerp t p q) 0 = nth k p 0 + t * (nth k q 0 - nth k p 0).
Proof.
  unfold lerp. induction p as [|v p IH]; intros [|u q] k t L; try discriminate L; [cbn; destruct k; lra|]. destruct k as [|k]; cbn; [auto|]. apply IH. cbn in L. lia.
Qed.
Lemma lerp_H h t p q : 0 <= t <= 1 -> length p = length q -> inH h p -> inH h q -> inH h (lerp t p q).
Proof. intros T L. destruct h; cbn; auto; rewrite nth_lerp by auto; intros; nra. Qed.
Lemma nth_in : forall p x k, inb p x -> (k < length x)%nat -> In (nth k p 0) (nth k x Emp).
Proof. intros p x k H. revert k. induction H; intros [|k] L; cbn in *; auto; try lia. apply IHForall2. lia. Qed.
Lemma not_in_nth : forall x p, length p = length x -> ~ inb p x -> exists k, (k < length x)%nat /\ ~ In (nth k p 0) (nth k x Emp).
Proof.
  induction x as [|i x IH]; intros [|v p] L H; try discriminate L; [destruct H; constructor|]. destruct (classic (In v i)) as [Hv|Hv].
  - destruct (IH p) as (k & A & B); [cbn in L; lia|intros K; apply H; constructor; auto|]. exists (S k). cbn. split; auto. lia.
  - exists 0%nat. cbn. split; auto. lia.
Qed.
Lemma set_coord : forall x p k v, inb p x -> (k < length x)%nat -> In v (nth k x Emp) -> exists q, inb q x /\ nth k q 0 = v.
Proof.
  intros x p k v H. revert k v. induction H as [|u i p x Hu H IH]; intros [|k] v L Hv; cbn in L; try lia.
  - exists (v :: p). split; [constructor; auto|reflexivity].
  - destruct (IH k v) as (q & Q1 & Q2); [lia|auto|]. exists (u :: q). split; [constructor; auto|auto].
Qed.
(** a point out of a box is separated from it *)
Lemma sep_half N x p : good N x -> length p = N -> ~ inb p x -> exists h, okH N h /\ inH h p /\ forall q, inb q x -> ~ inH h q.
Proof.
  intros (L & W & _) Lp H. destruct (not_in_nth x p) as (k & K1 & K2); auto; [congruence|].
  assert (Wk : wf (nth k x Emp)) by (rewrite Forall_forall in W; apply W, nth_In; auto).
  destruct (classic (exists v, In v (nth k x Emp) /\ v <= nth k p 0)) as [(v & V1 & V2)|NV].
  - exists (HGe k (nth k p 0)). split; [cbn; lia|]. split; [cbn; lra|]. intros q Hq Q. cbn in Q. assert (Z := nth_in q x k Hq K1). apply K2. apply (In_convex v _ (nth k q 0)); auto.
  - exists (HLe k (nth k p 0)). split; [cbn; lia|]. split; [cbn; lra|]. intros q Hq Q. cbn in Q. assert (Z := nth_in q x k Hq K1). apply NV. eauto.
Qed.
Lemma sup_lt i c : wf i -> (forall v, In v i -> v < c) -> exists c', c' < c /\ forall v, In v i -> v <= c'.
Proof.
  intros W H. destruct i as [|l [b|]].
  - exists (c - 1). split; [lra|]. intros v [].
  - exists b. split; [apply H; destruct l; cbn in *; lra|]. intros v Hv. destruct l; cbn in Hv; lra.
  - exfalso. destruct l as [a|].
    + assert (K := H (Rmax a c)). cbn in K. assert (A := Rmax_l a c). assert (B := Rmax_r a c). assert (Rmax a c < c) by auto. lra.
    + assert (K := H c). cbn in K. assert (c < c) by auto. lra.
Qed.
Lemma inf_gt i c : wf i -> (forall v, In v i -> c < v) -> exists c', c < c' /\ forall v, In v i -> c' <= v.
Proof.
  intros W H. destruct i as [|[a|] h].
  - exists (c + 1). split; [lra|]. intros v [].
  - exists a. split; [apply H; destruct h; cbn in *; lra|]. intros v Hv. destruct h; cbn in Hv; lra.
  - exfalso. destruct h as [b|].
    + assert (K := H (Rmin b c)). cbn in K. assert (A := Rmin_l b c). assert (B := Rmin_r b c). assert (c < Rmin b c) by auto. lra.
    + assert (K := H c). cbn in K. assert (c < c) by auto. lra.
Qed.
Lemma nth_hull : forall a b k, length a = length b -> b_is_empty a = false -> b_is_empty b = false -> (k < length a)%nat -> nth k (b_hull a b) Emp = hull (nth k a Emp) (nth k b Emp).
Proof.
  intros a b k L Ea Eb. unfold b_hull. rewrite Ea, Eb. clear Ea Eb. revert b L k. induction a as [|i a IH]; intros [|j b] L [|k] K; cbn in *; try lia; auto. apply IH; lia.
Qed.
(** a half-space that meets the hull of two boxes meets one of them *)
Lemma hull_half N h a b p : good N a -> good N b -> okH N h -> inb p (b_hull a b) -> inH h p -> exists q, (inb q a \/ inb q b) /\ inH h q.
Proof.
  intros Ga Gb OK Hp Hh. destruct (b_is_empty a) eqn:Ea.
  { exists p. split; auto. right. unfold b_hull in Hp. rewrite Ea in Hp. destruct (b_is_empty b); auto. destruct (empty_pts a Ea p); auto. }
  destruct (b_is_empty b) eqn:Eb.
  { exists p. split; auto. left. unfold b_hull in Hp. rewrite Eb in Hp. auto. }
  apply NNPP. intros NE. destruct (good_point N a Ga Ea) as (pa & Pa), (good_point N b Gb Eb) as (pb & Pb). destruct Ga as (La & Wa & _), Gb as (Lb & Wb & _).
  destruct h as [|k c|k c]; cbn in OK.
  - apply NE. exists pa. auto.
  - assert (Wka : wf (nth k a Emp)) by (rewrite Forall_forall in Wa; apply Wa, nth_In; lia). assert (Wkb : wf (nth k b Emp)) by (rewrite Forall_forall in Wb; apply Wb, nth_In; lia).
    destruct (inf_gt (nth k a Emp) c) as (c1 & C1 & D1); auto.
    { intros v Hv. destruct (set_coord a pa k v) as (q & Q1 & Q2); auto; [lia|]. apply Rnot_le_lt. intros K. apply NE. exists q. split; auto. cbn. lra. }
    destruct (inf_gt (nth k b Emp) c) as (c2 & C2 & D2); auto.
    { intros v Hv. destruct (set_coord b pb k v) as (q & Q1 & Q2); auto; [lia|]. apply Rnot_le_lt. intros K. apply NE. exists q. split; auto. cbn. lra. }
    assert (Z := nth_in p _ k Hp). rewrite b_hull_len in Z by congruence. specialize (Z ltac:(lia)). rewrite nth_hull in Z by (auto; lia).
    apply (hull_least _ _ (Itv (Some (Rmin c1 c2)) None)) in Z; auto; [|intros v Hv|intros v Hv]; cbn in *.
    + unfold Rmin in Z. destruct (Rle_dec c1 c2); lra.
    + specialize (D1 v Hv). unfold Rmin. destruct (Rle_dec c1 c2); lra.
    + specialize (D2 v Hv). unfold Rmin. destruct (Rle_dec c1 c2); lra.
  - assert (Wka : wf (nth k a Emp)) by (rewrite Forall_forall in Wa; apply Wa, nth_In; lia). assert (Wkb : wf (nth k b Emp)) by (rewrite Forall_forall in Wb; apply Wb, nth_In; lia).
    destruct (sup_lt (nth k a Emp) c) as (c1 & C1 & D1); auto.
    { intros v Hv. destruct (set_coord a pa k v) as (q & Q1 & Q2); auto; [lia|]. apply Rnot_le_lt. intros K. apply NE. exists q. split; auto. cbn. lra. }
    destruct (sup_lt (nth k b Emp) c) as (c2 & C2 & D2); auto.
    { intros v Hv. destruct (set_coord b pb k v) as (q & Q1 & Q2); auto; [lia|]. apply Rnot_le_lt. intros K. apply NE. exists q. split; auto. cbn. lra. }
    assert (Z := nth_in p _ k Hp). rewrite b_hull_len in Z by congruence. specialize (Z ltac:(lia)). rewrite nth_hull in Z by (auto; lia).
    apply (hull_least _ _ (Itv None (Some (Rmax c1 c2)))) in Z; auto; [|intros v Hv|intros v Hv]; cbn in *.
    + unfold Rmax in Z. destruct (Rle_dec c1 c2); lra.
    + specialize (D1 v Hv). unfold Rmax. destruct (Rle_dec c1 c2); lra.
    + specialize (D2 v Hv). unfold Rmax. destruct (Rle_dec c1 c2); lra.
Qed.
Lemma hull_all_half N h l : forall a p, good N a -> Forall (good N) l -> okH N h -> inb p (hull_all a l) -> inH h p -> exists q, (inb q a \/ exists d, List.In d l /\ inb q d) /\ inH h q.
Proof.
  unfold hull_all. induction l as [|d l IH]; intros a p Ga F OK Hp Hh; cbn [fold_left] in Hp; [exists p; auto|]. inversion F as [|? ? Gd F']; subst.
  destruct (IH _ p (good_hull N _ _ Ga Gd) F' OK Hp Hh) as (q & [Q|(e & E1 & E2)] & Qh).
  - destruct (hull_half N h a d q) as (w & [W|W] & Wh); auto; exists w; split; auto. right. exists d. split; auto. left. auto.
  - exists q. split; auto. right. exists e. split; auto. right. auto.
Qed.

(** ** Invariants *)
Section Inv.
  Variables (N : nat) (S : list R -> Prop) (diff : box -> box -> list box).
  Hypothesis HD : pdiff_lim N diff.

  (** the boxes of a node, for the part [E] of the space: [a] has the points out of [S], [b] those of [S], both have those
      of [B] *)
  Definition vnode (B : list R -> Prop) (E a b : box) : Prop := good N E /\ good N a /\ good N b /\
    (forall p, inb p a -> inb p E) /\ (forall p, inb p b -> inb p E) /\
    (forall p, inb p E -> ~ S p -> inb p a) /\ (forall p, inb p E -> S p -> inb p b) /\
    (forall p, inb p E -> B p -> inb p a /\ inb p b).
  (** all the nodes are so; [C] relates the boxes of a node and the parts of its children *)
  Fixpoint pinv (B : list R -> Prop) (C : box -> box -> box -> box -> box -> Prop) (E : box) (n : psn) : Prop :=
    match n with
    | PLeaf a b => vnode B E a b
    | PNode a b l r => vnode B E a b /\ exists El Er, C E a b El Er /\ pinv B C El l /\ pinv B C Er r
    end.
  Lemma pinv_node B C E n : pinv B C E n -> vnode B E (ps_in n) (ps_out n).
  Proof. destruct n; cbn; tauto. Qed.
  Lemma pinv_mono (B B' : list R -> Prop) (C C' : box -> box -> box -> box -> box -> Prop) : (forall p, B' p -> B p) -> (forall E a b El Er, vnode B E a b -> C E a b El Er -> C' E a b El Er) -> forall n E,
    pinv B C E n -> pinv B' C' E n.
  Proof.
    intros HB HC. assert (HV : forall E a b, vnode B E a b -> vnode B' E a b). { intros E a b (V1 & V2 & V3 & V4 & V5 & V6 & V7 & V8). refine (conj V1 (conj V2 (conj V3 (conj V4 (conj V5 (conj V6 (conj V7 _))))))). intros p Hp K. auto. }
    induction n as [a b|a b l IHl r IHr]; intros E H; cbn in *; auto.
    destruct H as (V & El & Er & H & Hl & Hr). split; auto. exists El, Er. auto.
  Qed.

  (** *** isInside *)
  Lemma inside_ok B C : forall n E, pinv B C E n -> reliable S E n.
  Proof.
    assert (AUX : forall n E, pinv B C E n -> forall p, match ps_inside n p with BYes => inb p E /\ S p | BNo => inb p E /\ ~ S p | BMaybe => inb p E | BEmpty => ~ inb p E end).
    { induction n as [a b|a b l IHl r IHr]; intros E I p.
      - assert (V := pinv_node _ _ _ _ I). destruct V as (GE & Ga & Gb & Sa & Sb & Ka & Kb & _). cbn [ps_inside ps_in ps_out] in *.
        destruct (b_contains a p) eqn:A, (b_contains b p) eqn:O; rewrite ?b_contains_ok, ?b_contains_no in *.
        + auto.
        + split; auto.
        + split; auto. apply NNPP. auto.
        + intros K. destruct (classic (S p)); auto.
      - assert (V := pinv_node _ _ _ _ I). destruct V as (GE & Ga & Gb & Sa & Sb & Ka & Kb & _). cbn [ps_inside ps_in ps_out] in *.
        destruct I as (_ & El & Er & _ & Il & Ir).
        destruct (b_contains a p) eqn:A, (b_contains b p) eqn:O; rewrite ?b_contains_ok, ?b_contains_no in *.
        + assert (HE : inb p E) by auto.
          assert (ST : forall m Em, pinv B C Em m -> b_contains (ps_in m) p || b_contains (ps_out m) p = true -> inb p Em).
          { intros m Em Im K. destruct (pinv_node _ _ _ _ Im) as (_ & _ & _ & S1 & S2 & _). apply orb_true_iff in K. rewrite !b_contains_ok in K. destruct K; auto. }
          destruct (b_contains (ps_in l) p || b_contains (ps_out l) p) eqn:CL; [|destruct (b_contains (ps_in r) p || b_contains (ps_out r) p) eqn:CR; auto].
          * assert (K := ST l El Il CL). specialize (IHl El Il p). destruct (ps_inside l p); tauto.
          * assert (K := ST r Er Ir CR). specialize (IHr Er Ir p). destruct (ps_inside r p); tauto.
        + split; auto.
        + split; auto. apply NNPP. auto.
        + intros K. destruct (classic (S p)); auto. }
    intros n E I p. specialize (AUX n E I p). split; intros H; destruct (ps_inside n p); tauto.
  Qed.

  (** *** Sivia *)
  Definition keepsB (B : list R -> Prop) (sep : sep_t) : Prop := forall a b p, good N a -> good N b -> B p -> (inb p a -> inb p (fst (sep a b))) /\ (inb p b -> inb p (snd (sep a b))).
  Lemma sep_vnode B sep E a b : psep N S sep -> keepsB B sep -> vnode B E a b -> vnode B E (fst (sep a b)) (snd (sep a b)).
  Proof.
    intros [K1 K2 G1 U1] KB (GE & Ga & Gb & Sa & Sb & Ka & Kb & Bd). destruct (G1 a b Ga Gb) as (A1 & A2).
    refine (conj GE (conj A1 (conj A2 (conj _ (conj _ (conj _ (conj _ _))))))).
    - intros p H. apply Sa. destruct (U1 a b p Ga Gb). auto.
    - intros p H. apply Sb. destruct (U1 a b p Ga Gb). auto.
    - intros p H NS. apply K1; auto.
    - intros p H NS. apply K2; auto.
    - intros p H HB. destruct (Bd p H HB) as (X & Y). destruct (KB a b p Ga Gb HB). auto.
  Qed.
  (** what is needed of [C]: it holds for smaller boxes, and for the parts given by a bisection *)
  Definition C_mono (C : box -> box -> box -> box -> box -> Prop) : Prop := forall E a b a' b' El Er, (forall p, inb p a' -> inb p a) -> (forall p, inb p b' -> inb p b) -> C E a b El Er -> C E a' b' El Er.
  Definition C_fresh (B : list R -> Prop) (C : box -> box -> box -> box -> box -> Prop) : Prop := forall E a b x1 x2, vnode B E a b -> good N x1 -> good N x2 ->
    (forall p, inb p x1 -> inb p a /\ inb p b) -> (forall p, inb p x2 -> inb p a /\ inb p b) -> (forall p, inb p a -> inb p b -> inb p x1 \/ inb p x2) -> C E a b x1 x2.
  Lemma new_inv B C x : good N x -> pinv B C x (ps_new x).
  Proof. intros G. refine (conj G (conj G (conj G (conj _ (conj _ (conj _ (conj _ _))))))); auto. Qed.
  Lemma sivia_inv B C bis sep eps : psep N S sep -> keepsB B sep -> pbis N bis -> C_mono C -> C_fresh B C ->
    forall fuel n n' E, pinv B C E n -> ps_sivia bis sep eps fuel n = Some n' -> pinv B C E n'.
  Proof.
    intros HS HK HB CM CF. induction fuel as [|fuel IH]; intros n n' E I H; [discriminate|]. cbn [ps_sivia] in H.
    assert (V := pinv_node _ _ _ _ I). assert (V' := sep_vnode B sep E _ _ HS HK V).
    assert (U : forall p, (inb p (fst (sep (ps_in n) (ps_out n))) -> inb p (ps_in n)) /\ (inb p (snd (sep (ps_in n) (ps_out n))) -> inb p (ps_out n))) by (intros p; apply (p_sub N S sep HS); apply V).
    destruct (sep (ps_in n) (ps_out n)) as [a b] eqn:EQ. cbn [fst snd] in *. assert (SET : pinv B C E (ps_set a b n)).
    { destruct n as [a0 b0|a0 b0 l r]; cbn in *; auto. destruct I as (_ & El & Er & HC & Il & Ir). split; auto. exists El, Er. split; auto. apply (CM E a0 b0); auto; intros p; apply (U p). }
    destruct (negb (b_is_empty (b_inter a b)) && wider eps (b_inter a b)) eqn:EW; [|injection H as <-; auto].
    apply andb_true_iff in EW. destruct EW as [NE _]. apply negb_true_iff in NE.
    destruct n as [a0 b0|a0 b0 l r]; cbn [ps_in ps_out] in *.
    - destruct (bis (b_inter b a)) as [[x1 x2]|] eqn:EB; [|discriminate]. cbn [option_map fst snd] in H.
      destruct V' as (GE & Ga & Gb & V'). assert (GX := good_inter N b a Gb Ga).
      assert (NX : b_is_empty (b_inter b a) = false).
      { destruct (good_point N (b_inter a b)) as (p & Hp); auto using good_inter. apply (inb_empty p). apply (inter_pts N); auto. apply (inter_pts N) in Hp; tauto. }
      destruct (HB _ _ _ GX NX EB) as ((G1 & N1 & S1) & (G2 & N2 & S2) & CV).
      destruct (ps_sivia bis sep eps fuel (ps_new x1)) as [l|] eqn:E1; [|discriminate]. destruct (ps_sivia bis sep eps fuel (ps_new x2)) as [r|] eqn:E2; [|discriminate]. injection H as <-.
      assert (V2 : vnode B E a b) by (unfold vnode; auto).
      split; auto. exists x1, x2. split; [|split; [apply (IH (ps_new x1)); auto using new_inv|apply (IH (ps_new x2)); auto using new_inv]].
      apply CF; auto.
      + intros p Hp. assert (K := inb_sub _ _ _ Hp S1). apply (inter_pts N) in K; tauto.
      + intros p Hp. assert (K := inb_sub _ _ _ Hp S2). apply (inter_pts N) in K; tauto.
      + intros p Pa Pb. apply CV. apply (inter_pts N); auto.
    - destruct I as (_ & El & Er & HC & Il & Ir). destruct (ps_sivia bis sep eps fuel l) as [l'|] eqn:E1; [|discriminate]. destruct (ps_sivia bis sep eps fuel r) as [r'|] eqn:E2; [|discriminate].
      injection H as <-. split; auto. exists El, Er. split; [|split; [apply (IH l); auto|apply (IH r); auto]]. apply (CM E a0 b0); auto; intros p; apply (U p).
  Qed.

  (** *** Reunite *)
  (** a box given by Reunite to a node *)
  Lemma reunite_box E x0 b ul ur : good N E -> good N x0 -> good N b -> good N ul -> good N ur -> (forall p, inb p x0 -> inb p E) ->
    (forall p, inb p b -> inb p x0) -> (forall p, inb p ul -> inb p E) -> (forall p, inb p ur -> inb p E) ->
    let a' := hull_all (b_hull ul ur) (diff x0 b) in
    good N a' /\ (forall p, inb p a' -> inb p E) /\ (forall p, inb p ul -> inb p a') /\ (forall p, inb p ur -> inb p a') /\
    (forall p, inb p x0 -> ~ inb p b -> inb p a') /\
    (forall h p, okH N h -> inb p a' -> inH h p -> exists q, inH h q /\ (inb q ul \/ inb q ur \/ (inb q E /\ limit (fun w => inb w E /\ ~ inb w b) q))).
  Proof.
    intros GE G0 Gb Gl Gr S0 SX NL NR a'. destruct HD as (D1 & D2).
    destruct (D1 x0 b G0 Gb SX) as (F & CV). assert (GF : Forall (good N) (diff x0 b)) by (eapply Forall_impl; [|exact F]; intros d K; apply K).
    assert (GH := good_hull N _ _ Gl Gr). destruct (hull_all_spec N (diff x0 b) _ GH GF) as (A1 & A2 & A3). fold a' in A1, A2, A3.
    rewrite Forall_forall in F.
    refine (conj A1 (conj _ (conj _ (conj _ (conj _ _))))).
    - apply A3; [apply GE|apply (hull_incl N); auto; apply GE|]. intros d Hd p Hp. apply S0. eapply inb_sub; [exact Hp|]. apply F; auto.
    - intros p H. apply A2. left. apply (hull_pts N); auto.
    - intros p H. apply A2. left. apply (hull_pts N); auto.
    - intros p H K. apply A2. right. apply CV; auto.
    - intros h p OK Hp Hh. destruct (hull_all_half N h _ _ p GH GF OK Hp Hh) as (q & [Q|(d & Q1 & Q2)] & Qh).
      + destruct (hull_half N h _ _ q Gl Gr OK Q Qh) as (w & W & Wh). exists w. tauto.
      + exists q. split; auto. right. right. split; [apply S0; eapply inb_sub; [exact Q2|]; apply F; auto|].
        intros eps He. destruct (D2 x0 b d q G0 Gb SX Q1 Q2 eps He) as (w & (W1 & W2) & W3). exists w. auto.
  Qed.
  (** both boxes *)
  Lemma reunite_pair B E a b B1 El B2 Er l r : vnode B E a b -> vnode B1 El (ps_in l) (ps_out l) -> vnode B2 Er (ps_in r) (ps_out r) ->
    (forall p, inb p El -> inb p E) -> (forall p, inb p Er -> inb p E) ->
    let x0 := b_hull a b in
    let a' := hull_all (b_hull (ps_in l) (ps_in r)) (diff x0 b) in
    let b' := hull_all (b_hull (ps_out l) (ps_out r)) (diff x0 a) in
    (good N a' /\ (forall p, inb p a' -> inb p E) /\ (forall p, inb p (ps_in l) -> inb p a') /\ (forall p, inb p (ps_in r) -> inb p a') /\
     (forall p, inb p a -> ~ inb p b -> inb p a') /\
     (forall h p, okH N h -> inb p a' -> inH h p -> exists q, inH h q /\ (inb q (ps_in l) \/ inb q (ps_in r) \/ (inb q E /\ limit (fun w => inb w E /\ ~ inb w b) q)))) /\
    (good N b' /\ (forall p, inb p b' -> inb p E) /\ (forall p, inb p (ps_out l) -> inb p b') /\ (forall p, inb p (ps_out r) -> inb p b') /\
     (forall p, inb p b -> ~ inb p a -> inb p b') /\
     (forall h p, okH N h -> inb p b' -> inH h p -> exists q, inH h q /\ (inb q (ps_out l) \/ inb q (ps_out r) \/ (inb q E /\ limit (fun w => inb w E /\ ~ inb w a) q)))).
  Proof.
    intros (GE & Ga & Gb & Sa & Sb & _) (_ & Gl & Gl' & Sl & Sl' & _) (_ & Gr & Gr' & Sr & Sr' & _) NL NR x0 a' b'.
    assert (G0 : good N x0) by (apply good_hull; auto).
    assert (S0 : forall p, inb p x0 -> inb p E) by (apply (hull_incl N); auto; apply GE).
    assert (X1 : forall p, inb p a -> inb p x0) by (intros p H; apply (hull_pts N); auto).
    assert (X2 : forall p, inb p b -> inb p x0) by (intros p H; apply (hull_pts N); auto).
    destruct (reunite_box E x0 b (ps_in l) (ps_in r)) as (A1 & A2 & A3 & A4 & A5 & A6); auto.
    destruct (reunite_box E x0 a (ps_out l) (ps_out r)) as (B1' & B2' & B3 & B4 & B5 & B6); auto.
    fold a' in A1, A2, A3, A4, A5, A6. fold b' in B1', B2', B3, B4, B5, B6. auto 20.
  Qed.
  Definition C_any (E a b El Er : box) : Prop := True.
  (** the parts of the children cover the boxes in and out of the node *)
  Definition C_cover (E a b El Er : box) : Prop := (forall p, inb p El -> inb p E) /\ (forall p, inb p Er -> inb p E) /\ (forall p, inb p a -> inb p b -> inb p El \/ inb p Er).
  Lemma set_inv B C E E' n a b : pinv B C E n -> vnode B E' a b -> (forall El Er, C E (ps_in n) (ps_out n) El Er -> C E' a b El Er) -> pinv B C E' (ps_set a b n).
  Proof. destruct n as [a0 b0|a0 b0 l r]; cbn; auto. intros (_ & El & Er & HC & Il & Ir) V K. split; auto. exists El, Er. auto. Qed.
  Lemma cut_vnode B E a b x : good N x -> vnode B E a b -> (forall p, B p -> inb p a -> inb p b -> inb p x) -> vnode B (b_inter E x) (b_inter a x) (b_inter b x).
  Proof.
    intros Gx (GE & Ga & Gb & Sa & Sb & Ka & Kb & Bd) Hx.
    refine (conj (good_inter N _ _ GE Gx) (conj (good_inter N _ _ Ga Gx) (conj (good_inter N _ _ Gb Gx) (conj _ (conj _ (conj _ (conj _ _))))))); intros p.
    - rewrite !(inter_pts N) by auto. intuition.
    - rewrite !(inter_pts N) by auto. intuition.
    - rewrite !(inter_pts N) by auto. intuition.
    - rewrite !(inter_pts N) by auto. intuition.
    - rewrite !(inter_pts N) by auto. intros (H & K) HB. destruct (Bd p H HB). auto.
  Qed.
  Lemma children_inv B C E a b l : vnode B E a b -> (forall c d ll lr, l = PNode c d ll lr -> exists El Er, C E a b El Er /\ pinv B C El ll /\ pinv B C Er lr) ->
    pinv B C E (match l with PLeaf _ _ => PLeaf a b | PNode _ _ ll lr => PNode a b ll lr end).
  Proof. destruct l as [c d|c d ll lr]; intros V H; cbn; auto. split; auto. apply (H c d ll lr eq_refl). Qed.
  Definition noB (p : list R) : Prop := False.
  Lemma reunite_cover : forall n E, pinv noB C_cover E n -> exists n', ps_reunite diff n = Some (false, n') /\ pinv noB C_any E n'.
  Proof.
    induction n as [a b|a b l IHl r IHr]; intros E I; [exists (PLeaf a b); auto|].
    destruct I as (V & El & Er & (NL & NR & CV) & Il & Ir). destruct (IHl El Il) as (l' & El' & Il'), (IHr Er Ir) as (r' & Er' & Ir'). clear IHl IHr Il Ir.
    assert (Vl := pinv_node _ _ _ _ Il'). assert (Vr := pinv_node _ _ _ _ Ir').
    destruct (reunite_pair _ E a b _ El _ Er l' r' V Vl Vr NL NR) as ((A1 & A2 & A3 & A4 & A5 & _) & (B1 & B2 & B3 & B4 & B5 & _)).
    cbn [ps_reunite]. rewrite El', Er'. cbv zeta. cbn [orb].
    set (a' := hull_all (b_hull (ps_in l') (ps_in r')) (diff (b_hull a b) b)) in *. set (b' := hull_all (b_hull (ps_out l') (ps_out r')) (diff (b_hull a b) a)) in *.
    assert (V' : vnode noB E a' b').
    { destruct V as (GE & Ga & Gb & Sa & Sb & Ka & Kb & _), Vl as (_ & _ & _ & _ & _ & Kl & Kl' & _), Vr as (_ & _ & _ & _ & _ & Kr & Kr' & _).
      refine (conj GE (conj A1 (conj B1 (conj A2 (conj B2 (conj _ (conj _ _))))))).
      - intros p HE NS. destruct (classic (inb p b)) as [Hb|Hb]; [|auto]. destruct (CV p); auto.
      - intros p HE NS. destruct (classic (inb p a)) as [Ha|Ha]; [|auto]. destruct (CV p); auto.
      - intros p HE []. }
    assert (CH : forall m Em, pinv noB C_any Em m -> pinv noB C_any E (match m with PLeaf _ _ => PLeaf a' b' | PNode _ _ l r => PNode a' b' l r end)).
    { intros m Em Im. apply children_inv; auto. intros c d ll lr ->. destruct Im as (_ & Ell & Elr & _ & X & Y). exists Ell, Elr. split; [exact Logic.I|auto]. }
    destruct (ps_is_empty l' || ps_is_empty r') eqn:EE.
    - unfold ps_remove. destruct (ps_is_empty l'), (ps_is_empty r'); try discriminate EE; cbn [option_map]; eexists; (split; [reflexivity|]); [exact V'|eapply CH; eauto|eapply CH; eauto].
    - eexists. split; [reflexivity|]. split; auto. exists (b_inter El (b_inter a' b')), (b_inter Er (b_inter a' b')). split; [exact Logic.I|]. assert (GX := good_inter N _ _ A1 B1). split.
      + apply (set_inv noB C_any El); [auto|apply cut_vnode; auto; intros p []|auto].
      + apply (set_inv noB C_any Er); [auto|apply cut_vnode; auto; intros p []|auto].
  Qed.

  (** *** Separators that keep the boundary *)
  Definition C_bd (E a b El Er : box) : Prop := (forall p, inb p El -> inb p E) /\ (forall p, inb p Er -> inb p E) /\
    (forall p, inb p a -> inb p b -> inb p (b_hull El Er)) /\ (forall p, inb p E -> bdry S p -> inb p El \/ inb p Er).
  Definition C_bd' (E a b El Er : box) : Prop := C_bd E a b El Er /\ (forall p, inb p El -> inb p a /\ inb p b) /\ (forall p, inb p Er -> inb p a /\ inb p b).
  (** a part of a half-space without point of the boundary is all in [P], or all out of it *)
  Lemma homogeneous (P : list R -> Prop) E h p q : (forall w, inb w E -> inH h w -> ~ bdry P w) -> inb p E -> inb q E -> inH h p -> inH h q -> P p -> P q.
  Proof.
    intros NB Ep Eq Hp Hq Pp. apply NNPP. intros NP. assert (L : length p = length q) by (rewrite (inb_len _ _ Ep), (inb_len _ _ Eq); auto).
    destruct (seg_bdry P p q L Pp NP) as (t & T & TB). apply (NB (lerp t p q)); auto; [apply lerp_box; auto|apply lerp_H; auto].
  Qed.
  Lemma keep_side (P : list R -> Prop) E a b El Er a' : good N E -> good N El -> good N Er -> good N a' -> (forall p, inb p El -> inb p E) -> (forall p, inb p Er -> inb p E) ->
    (forall p, inb p E -> bdry P p -> inb p a') -> (forall p, inb p E -> P p -> inb p a) -> (forall p, inb p a -> inb p b -> inb p (b_hull El Er)) ->
    (forall p, inb p El -> P p -> inb p a') -> (forall p, inb p Er -> P p -> inb p a') -> (forall p, inb p a -> ~ inb p b -> inb p a') ->
    forall p, inb p E -> P p -> inb p a'.
  Proof.
    intros GE Gl Gr Ga NL NR Bd Ka CV Kl Kr Kn p Ep Pp. apply NNPP. intros NA. destruct (classic (inb p b)) as [Hb|Hb]; [|apply NA; apply Kn; auto].
    destruct (sep_half N a' p) as (h & OK & Hp & Hh); auto; [rewrite (inb_len _ _ Ep); apply GE|].
    assert (NB : forall w, inb w E -> inH h w -> ~ bdry P w) by (intros w We Wh Wb; apply (Hh w); auto).
    destruct (hull_half N h El Er p) as (w & W & Wh); auto.
    assert (We : inb w E) by (destruct W; auto). assert (Pw : P w) by (apply (homogeneous P E h p w); auto).
    apply (Hh w); auto. destruct W; auto.
  Qed.
  (** where the new boxes in and out meet a half-space, there is a point of the boundary, or a child that is not empty *)
  Lemma reach E a b El Er l r h z : vnode (bdry S) E a b -> vnode (bdry S) El (ps_in l) (ps_out l) -> vnode (bdry S) Er (ps_in r) (ps_out r) ->
    (forall p, inb p El -> inb p E) -> (forall p, inb p Er -> inb p E) -> okH N h -> inb z E -> inH h z ->
    (exists q, inH h q /\ (inb q (ps_in l) \/ inb q (ps_in r) \/ (inb q E /\ limit (fun w => inb w E /\ ~ inb w b) q))) ->
    (exists q, inH h q /\ (inb q (ps_out l) \/ inb q (ps_out r) \/ (inb q E /\ limit (fun w => inb w E /\ ~ inb w a) q))) ->
    (exists p, inb p E /\ inH h p /\ bdry S p) \/ (exists w, inH h w /\ ((inb w (ps_in l) /\ inb w (ps_out l)) \/ (inb w (ps_in r) /\ inb w (ps_out r)))).
  Proof.
    intros (_ & _ & _ & _ & _ & Ka & Kb & _) (_ & _ & _ & Sl & Sl' & Kl & Kl' & _) (_ & _ & _ & Sr & Sr' & Kr & Kr' & _) NL NR OK Ez Hz HA HB.
    apply NNPP. intros NE. assert (NB : forall w, inb w E -> inH h w -> ~ bdry S w) by (intros w We Wh Wb; apply NE; left; eauto).
    assert (NB' : forall w, inb w E -> inH h w -> ~ bdry (fun q => ~ S q) w).
    { intros w We Wh [W1 W2]. apply (NB w); auto. split; auto. intros eps He. destruct (W2 eps He) as (q & Q1 & Q2). exists q. split; auto. apply NNPP. auto. }
    destruct (classic (S z)) as [Sz|Sz].
    - assert (AL : forall w, inb w E -> inH h w -> S w) by (intros w We Wh; apply (homogeneous S E h z w); auto).
      destruct HA as (q & Qh & [Q|[Q|(Q & QL)]]); [apply NE; right; exists q; auto 10|apply NE; right; exists q; auto 10|].
      apply (NB q); auto. split; [intros eps He; exists q; split; auto; apply near_refl; auto|]. intros eps He. destruct (QL eps He) as (w & (W1 & W2) & W3). exists w. auto.
    - assert (AL : forall w, inb w E -> inH h w -> ~ S w) by (intros w We Wh; apply (homogeneous (fun q => ~ S q) E h z w); auto).
      destruct HB as (q & Qh & [Q|[Q|(Q & QL)]]); [apply NE; right; exists q; auto 10|apply NE; right; exists q; auto 10|].
      apply (NB q); auto. split; [|intros eps He; exists q; split; auto; apply near_refl; auto]. intros eps He. destruct (QL eps He) as (w & (W1 & W2) & W3). exists w. split; auto. apply NNPP. auto.
  Qed.
  Lemma hull_of_half (X L1 L2 : box) : good N X -> good N L1 -> good N L2 -> (forall h z, okH N h -> inH h z -> inb z X -> exists w, inH h w /\ (inb w L1 \/ inb w L2)) ->
    forall p, inb p X -> inb p (b_hull L1 L2).
  Proof.
    intros GX G1 G2 H p Hp. apply NNPP. intros NI. destruct (sep_half N (b_hull L1 L2) p) as (h & OK & Ph & Hh); auto using good_hull; [rewrite (inb_len _ _ Hp); apply GX|].
    destruct (H h p OK Ph Hp) as (w & Wh & W). apply (Hh w); auto. apply (hull_pts N); auto.
  Qed.
  Lemma reunite_bd : forall n E, pinv (bdry S) C_bd E n -> exists n', ps_reunite diff n = Some (false, n') /\ pinv (bdry S) C_bd' E n'.
  Proof.
    induction n as [a b|a b l IHl r IHr]; intros E I; [exists (PLeaf a b); auto|].
    destruct I as (V & El & Er & (NL & NR & CV & CB) & Il & Ir). destruct (IHl El Il) as (l' & El' & Il'), (IHr Er Ir) as (r' & Er' & Ir'). clear IHl IHr Il Ir.
    assert (Vl := pinv_node _ _ _ _ Il'). assert (Vr := pinv_node _ _ _ _ Ir').
    destruct (reunite_pair _ E a b _ El _ Er l' r' V Vl Vr NL NR) as ((A1 & A2 & A3 & A4 & A5 & A6) & (B1 & B2 & B3 & B4 & B5 & B6)).
    cbn [ps_reunite]. rewrite El', Er'. cbv zeta. cbn [orb].
    set (a' := hull_all (b_hull (ps_in l') (ps_in r')) (diff (b_hull a b) b)) in *. set (b' := hull_all (b_hull (ps_out l') (ps_out r')) (diff (b_hull a b) a)) in *.
    assert (GX := good_inter N _ _ A1 B1).
    assert (BL : forall p, inb p El -> bdry S p -> inb p (ps_in l') /\ inb p (ps_out l')) by apply Vl. assert (BR : forall p, inb p Er -> bdry S p -> inb p (ps_in r') /\ inb p (ps_out r')) by apply Vr.
    assert (Bd : forall p, inb p E -> bdry S p -> inb p a' /\ inb p b'). { intros p HE HB. destruct (CB p HE HB) as [K|K]; [destruct (BL p K HB)|destruct (BR p K HB)]; auto. }
    assert (GL : good N El) by apply Vl. assert (GR : good N Er) by apply Vr.
    assert (V' : vnode (bdry S) E a' b').
    { assert (V0 := V). destruct V as (GE & Ga & Gb & Sa & Sb & Ka & Kb & _). assert (V1 := Vl). assert (V2 := Vr). destruct Vl as (_ & _ & _ & _ & _ & Kl & Kl' & _), Vr as (_ & _ & _ & _ & _ & Kr & Kr' & _).
      refine (conj GE (conj A1 (conj B1 (conj A2 (conj B2 (conj _ (conj _ Bd))))))).
      - apply (keep_side (fun p => ~ S p) E a b El Er); auto. intros p HE [W1 W2]. apply Bd; auto. split; auto. intros eps He. destruct (W2 eps He) as (q & Q1 & Q2). exists q. split; auto. apply NNPP. auto.
      - apply (keep_side S E b a El Er); auto. intros p HE HB. apply Bd; auto. }
    assert (RE : forall h z, okH N h -> inH h z -> inb z (b_inter a' b') -> (exists p, inb p E /\ inH h p /\ bdry S p) \/ (exists w, inH h w /\ ((inb w (ps_in l') /\ inb w (ps_out l')) \/ (inb w (ps_in r') /\ inb w (ps_out r'))))).
    { intros h z OK Hz Z. apply (inter_pts N) in Z; auto. destruct Z as (Z1 & Z2). apply (reach E a b El Er l' r' h z); eauto. }
    assert (CH : forall m m0 Em E0, pinv (bdry S) C_bd' Em m -> vnode (bdry S) E0 (ps_in m0) (ps_out m0) -> ps_is_empty m0 = true -> (forall p, inb p Em -> inb p E) ->
      (forall p, inb p E -> bdry S p -> inb p Em \/ inb p E0) -> (forall p, inb p (ps_in m) -> inb p a') -> (forall p, inb p (ps_out m) -> inb p b') ->
      (forall h z, okH N h -> inH h z -> inb z (b_inter a' b') -> (exists p, inb p E /\ inH h p /\ bdry S p) \/ (exists w, inH h w /\ ((inb w (ps_in m) /\ inb w (ps_out m)) \/ (inb w (ps_in m0) /\ inb w (ps_out m0))))) ->
      pinv (bdry S) C_bd' E (match m with PLeaf _ _ => PLeaf a' b' | PNode _ _ l r => PNode a' b' l r end)).
    { intros m m0 Em E0 Im V0 Ee NM CM M1 M2 RM. apply children_inv; auto. intros c d ll lr ->. cbn [ps_in ps_out] in *.
      assert (N0 : forall w, inb w (ps_in m0) -> inb w (ps_out m0) -> False).
      { intros w W1 W2. apply (empty_pts _ Ee w). apply (inter_pts N); auto; apply V0. }
      assert (B0 : forall p, inb p E -> bdry S p -> inb p Em). { intros p HE HB. destruct (CM p HE HB) as [K|K]; auto. destruct V0 as (_ & _ & _ & _ & _ & _ & _ & W). destruct (W p K HB). destruct (N0 p); auto. }
      destruct Im as (Vm & Ell & Elr & ((NLL & NLR & HC & HB) & T1 & T2) & X & Y). exists Ell, Elr. split; [|auto].
      assert (G1 : good N Ell) by apply (pinv_node _ _ _ _ X). assert (G2 : good N Elr) by apply (pinv_node _ _ _ _ Y).
      split; [split; [|split; [|split]]|split]; auto.
      - intros p Pa Pb. apply (hull_of_half (b_inter a' b')); auto; [|apply (inter_pts N); auto]. intros h z OK Hz Z.
        destruct (RM h z OK Hz Z) as [(w & We & Wh & Wb)|(w & Wh & [[W1 W2]|[W1 W2]])]; [exists w; auto| |destruct (N0 w); auto].
        destruct (hull_half N h Ell Elr w) as (v & V1 & V2); auto. exists v. tauto.
      - intros p K. destruct (T1 p K). auto.
      - intros p K. destruct (T2 p K). auto. }
    destruct (ps_is_empty l' || ps_is_empty r') eqn:EE.
    - unfold ps_remove. destruct (ps_is_empty l') eqn:Z1, (ps_is_empty r') eqn:Z2; try discriminate EE; cbn [option_map]; eexists; (split; [reflexivity|]); [exact V'| |].
      + apply (CH r' l' Er El); auto; [intros p HE HB; destruct (CB p HE HB); auto|]. intros h z OK Hz Z. destruct (RE h z OK Hz Z) as [K|(w & Wh & [K|K])]; auto; right; exists w; tauto.
      + apply (CH l' r' El Er); auto.
    - eexists. split; [reflexivity|]. split; auto. exists (b_inter El (b_inter a' b')), (b_inter Er (b_inter a' b')). split.
      + split; [split; [|split; [|split]]|split].
        * intros p K. apply (inter_pts N) in K; auto. apply NL; tauto.
        * intros p K. apply (inter_pts N) in K; auto. apply NR; tauto.
        * intros p Pa Pb. apply (hull_of_half (b_inter a' b')); auto using good_inter; [|apply (inter_pts N); auto]. intros h z OK Hz Z.
          destruct (RE h z OK Hz Z) as [(w & We & Wh & Wb)|(w & Wh & [[W1 W2]|[W1 W2]])]; exists w; (split; [auto|]).
          -- destruct (Bd w We Wb). destruct (CB w We Wb); [left|right]; repeat (apply (inter_pts N); auto using good_inter; split; auto).
          -- left. repeat (apply (inter_pts N); auto using good_inter; split; auto). apply Vl. auto.
          -- right. repeat (apply (inter_pts N); auto using good_inter; split; auto). apply Vr. auto.
        * intros p HE HB. destruct (Bd p HE HB). destruct (CB p HE HB); [left|right]; repeat (apply (inter_pts N); auto using good_inter; split; auto).
        * intros p K. apply (inter_pts N) in K; auto. destruct K as (_ & K). apply (inter_pts N) in K; auto.
        * intros p K. apply (inter_pts N) in K; auto. destruct K as (_ & K). apply (inter_pts N) in K; auto.
      + assert (IX : forall p, inb p a' -> inb p b' -> inb p (b_inter a' b')) by (intros p K1 K2; apply (inter_pts N); auto).
        assert (CUT : forall m Em, pinv (bdry S) C_bd' Em m -> vnode (bdry S) Em (ps_in m) (ps_out m) -> (forall p, inb p (ps_in m) -> inb p a') -> (forall p, inb p (ps_out m) -> inb p b') ->
          pinv (bdry S) C_bd' (b_inter Em (b_inter a' b')) (ps_set (b_inter (ps_in m) (b_inter a' b')) (b_inter (ps_out m) (b_inter a' b')) m)).
        { intros m Em Im Vm M1 M2. apply (set_inv (bdry S) C_bd' Em); [auto|apply cut_vnode; auto|].
          intros Ell Elr ((Q1 & Q2 & Q3 & Q4) & T1 & T2). destruct Vm as (GM & Gi & Go & _).
          split; [split; [|split; [|split]]|split].
          - intros p K. destruct (T1 p K). apply (inter_pts N); auto.
          - intros p K. destruct (T2 p K). apply (inter_pts N); auto.
          - intros p Pa Pb. apply (inter_pts N) in Pa; auto. apply (inter_pts N) in Pb; auto. apply Q3; tauto.
          - intros p K HB. apply (inter_pts N) in K; auto. apply Q4; tauto.
          - intros p K. destruct (T1 p K). split; apply (inter_pts N); auto.
          - intros p K. destruct (T2 p K). split; apply (inter_pts N); auto. }
        split; apply CUT; auto.
  Qed.
End Inv.

(** ** C91 *)
Lemma any_mono : C_mono C_any. Proof. intros E a b a' b' El Er _ _ _. exact Logic.I. Qed.
Lemma any_fresh N S B : C_fresh N S B C_any. Proof. intros E a b x1 x2 _ _ _ _ _ _. exact Logic.I. Qed.
Lemma cover_mono : C_mono C_cover.
Proof. intros E a b a' b' El Er Ha Hb (A & B & C). refine (conj A (conj B _)). auto. Qed.
Lemma cover_fresh N S B : C_fresh N S B C_cover.
Proof. intros E a b x1 x2 (_ & _ & _ & Sa & _) _ _ H1 H2 CV. refine (conj _ (conj _ CV)); intros p Hp; [destruct (H1 p Hp)|destruct (H2 p Hp)]; auto. Qed.
Lemma bd_mono S : C_mono (C_bd S).
Proof. intros E a b a' b' El Er Ha Hb (A & B & C & D). refine (conj A (conj B (conj _ D))). auto. Qed.
Lemma bd_fresh N S : C_fresh N S (bdry S) (C_bd S).
Proof.
  intros E a b x1 x2 (_ & _ & _ & Sa & _ & _ & _ & Bd) G1 G2 H1 H2 CV. refine (conj _ (conj _ (conj _ _))); [intros p Hp; destruct (H1 p Hp); auto|intros p Hp; destruct (H2 p Hp); auto| |].
  - intros p Ha Hb. apply (hull_pts N); auto.
  - intros p HE HB. destruct (Bd p HE HB). auto.
Qed.
Lemma keeps_noB N sep : keepsB N noB sep. Proof. intros a b p _ _ []. Qed.
Lemma run_sivia N S C diff l : C_mono C -> C_fresh N S noB C -> Forall (op_ok N S) l -> Forall is_sivia l -> forall n n' E, pinv N S noB C E n -> ps_run diff l n = Some n' -> pinv N S noB C E n'.
Proof.
  intros CM CF. induction 1 as [|o l Ho Hl IH]; intros F n n' E I H; inversion F as [|? ? Hs F']; subst; cbn [ps_run] in H; [injection H as <-; auto|].
  destruct o as [bis sep eps fuel|]; [|destruct Hs]. destruct Ho as (HB & HS). destruct (ps_sivia bis sep eps fuel n) as [n1|] eqn:E1; [|discriminate].
  apply (IH F' n1); auto. apply (sivia_inv N S noB C bis sep eps HS (keeps_noB N sep) HB CM CF fuel n n1 E I E1).
Qed.
Lemma run_app diff l1 l2 n : ps_run diff (l1 ++ l2) n = match ps_run diff l1 n with Some n => ps_run diff l2 n | None => None end.
Proof.
  revert n. induction l1 as [|o l1 IH]; intros n; cbn [ps_run app]; auto. destruct o as [bis sep eps fuel|].
  - destruct (ps_sivia bis sep eps fuel n); auto.
  - destruct (ps_reunite diff n) as [[s m]|]; auto.
Qed.
(** Calls to Sivia, then at most one call to Reunite, then calls to Sivia, with separators of the same set [S]: the answers
    of isInside are right.  Missing: several calls to Reunite, for which this is false ([C91_refuted]) without the hypothesis
    of [C91_bdry_partial]. *)
Theorem C91_once_partial : forall N S diff E l1 l2 (reunited : bool) n, pdiff_lim N diff -> good N E -> Forall (op_ok N S) (l1 ++ l2) -> Forall is_sivia (l1 ++ l2) ->
  ps_run diff (l1 ++ (if reunited then [OReunite] else []) ++ l2) (ps_new E) = Some n -> reliable S E n.
Proof.
  intros N S diff E l1 l2 u n HD GE F1 F2 H. apply Forall_app in F1. apply Forall_app in F2. destruct F1 as (F1 & F1'), F2 as (F2 & F2'). rewrite run_app in H.
  destruct (ps_run diff l1 (ps_new E)) as [n1|] eqn:E1; [|discriminate].
  assert (I1 := run_sivia N S C_cover diff l1 cover_mono (cover_fresh N S noB) F1 F2 _ _ E (new_inv N S noB C_cover E GE) E1).
  apply (inside_ok N S noB C_any n E). destruct u; cbn [app ps_run] in H.
  - destruct (reunite_cover N S diff HD n1 E I1) as (n2 & E2 & I2). rewrite E2 in H. apply (run_sivia N S C_any diff l2 any_mono (any_fresh N S noB) F1' F2' n2 n E I2 H).
  - apply (run_sivia N S C_any diff l2 any_mono (any_fresh N S noB) F1' F2' n1 n E); auto. revert I1. apply pinv_mono; auto. intros; exact Logic.I.
Qed.
(** Any number of calls to Sivia and to Reunite, with separators that keep the points of the boundary of [S] (as those
    made of contractors for two closed sets, SepFwdBwd and SepCtcPair): the answers of isInside are right. *)
Theorem C91_bdry_partial : forall N S diff E l n, pdiff_lim N diff -> good N E -> Forall (op_ok N S) l -> Forall (op_bd N S) l ->
  ps_run diff l (ps_new E) = Some n -> reliable S E n.
Proof.
  intros N S diff E l n HD GE F1 F2 H. apply (inside_ok N S (bdry S) (C_bd S) n E).
  assert (I := new_inv N S (bdry S) (C_bd S) E GE). revert H. generalize dependent (ps_new E). revert n F2. induction F1 as [|o l Ho Hl IH]; intros n F2 m I H; cbn [ps_run] in H; [injection H as <-; auto|].
  inversion F2 as [|? ? Hb F2']; subst. destruct o as [bis sep eps fuel|].
  - destruct (ps_sivia bis sep eps fuel m) as [m1|] eqn:E1; [|discriminate]. apply (IH n F2' m1); auto. destruct Ho as (HB & HS).
    apply (sivia_inv N S (bdry S) (C_bd S) bis sep eps HS Hb HB (bd_mono S) (bd_fresh N S) fuel m m1 E I E1).
  - destruct (reunite_bd N S diff HD m E I) as (m1 & E1 & I1). rewrite E1 in H. apply (IH n F2' m1); auto. revert I1. apply pinv_mono; auto. intros E0 a b El Er _ (K & _). exact K.
Qed.
(** reunite ends without failure of its assertion on these pavings. *)
Theorem C91_no_abort : forall N S diff E l n, pdiff_lim N diff -> good N E -> Forall (op_ok N S) l -> Forall (op_bd N S) l ->
  ps_run diff l (ps_new E) = Some n -> ps_reunite diff n <> None.
Proof.
  intros N S diff E l n HD GE F1 F2 H. assert (K : pinv N S (bdry S) (C_bd S) E n); [|destruct (reunite_bd N S diff HD n E K) as (m & -> & _); discriminate].
  assert (I := new_inv N S (bdry S) (C_bd S) E GE). revert H. generalize dependent (ps_new E). revert n F2. induction F1 as [|o l Ho Hl IH]; intros n F2 m I H; cbn [ps_run] in H; [injection H as <-; auto|].
  inversion F2 as [|? ? Hb F2']; subst. destruct o as [bis sep eps fuel|].
  - destruct (ps_sivia bis sep eps fuel m) as [m1|] eqn:E1; [|discriminate]. apply (IH n F2' m1); auto. destruct Ho as (HB & HS).
    apply (sivia_inv N S (bdry S) (C_bd S) bis sep eps HS Hb HB (bd_mono S) (bd_fresh N S) fuel m m1 E I E1).
  - destruct (reunite_bd N S diff HD m E I) as (m1 & E1 & I1). rewrite E1 in H. apply (IH n F2' m1); auto. revert I1. apply pinv_mono; auto. intros E0 a b El Er _ (K & _). exact K.
Qed.
(** The value returned by reunite is never true. *)
Theorem C91_return : forall diff n s n', ps_reunite diff n = Some (s, n') -> s = false.
Proof.
  intros diff. induction n as [a b|a b l IHl r IHr]; intros s n' H; cbn [ps_reunite] in H; [injection H; auto|].
  destruct (ps_reunite diff l) as [[s1 l']|]; [|discriminate]. destruct (ps_reunite diff r) as [[s2 r']|]; [|discriminate].
  rewrite (IHl s1 l' eq_refl), (IHr s2 r' eq_refl) in H. cbv zeta in H. cbn [orb] in H.
  destruct (_ || _); [|injection H; auto]. destruct (ps_remove _ _ l' r'); [|discriminate]. injection H; auto.
Qed.

(** ** What is expected of the operations of IBEX is satisfied *)
Lemma cdiff_lim n : pdiff_lim n cdiff.
Proof.
  split; [apply cdiff_pdiff|]. intros x0 x d p G0 G P Hd Hp. unfold cdiff in Hd. destruct (b_is_empty x) eqn:E.
  - destruct Hd as [<-|[]]. intros eps He. exists p. split; [split; auto; apply empty_pts; auto|apply near_refl; auto].
  - destruct G as (L & W & NE), G0 as (L0 & W0 & NE0). specialize (NE E). assert (SX : Forall2 sub x x0) by (apply incl_sub; auto; congruence).
    destruct (flat x0 x) eqn:F; [destruct Hd as [<-|[]]; apply flat_limit; auto|]. apply (slabs_limit x0 x d p); auto.
Qed.
(** a separator made of contractors for the boxes [A1], [A2] and [B] *)
Definition sep_abc (A1 A2 B : box) : sep_t := fun a b => (b_hull (b_inter a A1) (b_inter a A2), b_inter b B).
Lemma sep_abc_ok N (S : list R -> Prop) A1 A2 B : good N A1 -> good N A2 -> good N B -> (forall p, length p = N -> S p -> inb p B) -> (forall p, length p = N -> ~ S p -> inb p A1 \/ inb p A2) ->
  psep N S (sep_abc A1 A2 B) /\ keeps_bdry N S (sep_abc A1 A2 B).
Proof.
  intros G1 G2 GB HB HA. unfold sep_abc. assert (GI : forall a, good N a -> good N (b_inter a A1) /\ good N (b_inter a A2)) by (intros; split; apply good_inter; auto). split; [constructor; cbn [fst snd]|].
  - intros a b p Ga Gb Hp NS. destruct (GI a Ga). assert (L : length p = N) by (rewrite (inb_len _ _ Hp); apply Ga). apply (hull_pts N); auto. destruct (HA p L NS); [left|right]; apply (inter_pts N); auto.
  - intros a b p Ga Gb Hp HS. assert (L : length p = N) by (rewrite (inb_len _ _ Hp); apply Gb). apply (inter_pts N); auto.
  - intros a b Ga Gb. destruct (GI a Ga). split; [apply good_hull|apply good_inter]; auto.
  - intros a b p Ga Gb. destruct (GI a Ga). split.
    + apply (hull_incl N); auto; [apply Ga| |]; intros q Q; apply (inter_pts N) in Q; tauto.
    + intros Q. apply (inter_pts N) in Q; tauto.
  - intros a b p Ga Gb (B1 & B2). destruct (GI a Ga). cbn [fst snd]. split; intros Hp.
    + assert (L : length p = N) by (rewrite (inb_len _ _ Hp); apply Ga). assert (K : reported [A1; A2] p).
      { apply boxes_closed. intros eps He. destruct (B2 eps He) as (q & Q1 & Q2). exists q. split; auto. assert (Lq : length q = N) by (rewrite <- L; symmetry; apply (F2_len _ _ _ Q2)). destruct (HA q Lq Q1) as [K|K]; [exists A1|exists A2]; cbn; auto. }
      apply (hull_pts N); auto. destruct K as (y & [<-|[<-|[]]] & K); [left|right]; apply (inter_pts N); auto.
    + assert (L : length p = N) by (rewrite (inb_len _ _ Hp); apply Gb). assert (K : reported [B] p).
      { apply boxes_closed. intros eps He. destruct (B1 eps He) as (q & Q1 & Q2). exists q. split; auto. assert (Lq : length q = N) by (rewrite <- L; symmetry; apply (F2_len _ _ _ Q2)). exists B. split; [left; auto|auto]. }
      apply (inter_pts N); auto. destruct K as (y & [<-|[]] & K). auto.
Qed.

(** ** Concrete calls *)
Ltac norm2 t := let H := fresh "N" in
  eassert (H : t = _) by (unfold wider, max_diam, dlt, b_inter, b_hull, cdiff, flat, slabs, box_eqb, b_contains, I2, pt; cbn; reval; reflexivity);
  rewrite ?H; clear H.
Ltac ev2 := match goal with
 | |- context [wider ?e ?a] => lit a; norm2 (wider e a)
 | |- context [b_contains ?a ?p] => lit a; norm2 (b_contains a p)
 end.
Definition halfline_l (c : R) : box := [Itv None (Some c)].
Definition halfline_r (c : R) : box := [Itv (Some c) None].
Ltac pgo := repeat (progress (evf; try ev2; autorewrite with pset; unfold hull_all, fold_left;
  cbn [fst snd map andb orb negb b_is_empty is_empty b_set_empty I2 ps_new ps_in ps_out option_map]; fl)).

(** the set [0,5] *)
Definition seg_S (p : list R) : Prop := inb p [I2 0 5].
Definition seg_sep : sep_t := sep_abc (halfline_l 0) (halfline_r 5) [I2 0 5].
Lemma good_l c : good 1 (halfline_l c) /\ good 1 (halfline_r c).
Proof. split; (split; [reflexivity|split; [constructor; [exact Logic.I|constructor]|intros _ [H|[]]; discriminate]]). Qed.
Lemma seg_sep_ok : psep 1 seg_S seg_sep /\ keeps_bdry 1 seg_S seg_sep.
Proof.
  apply sep_abc_ok; try apply good_l; [apply good_1; lra|auto|]. intros [|v [|u p]] L NS; try discriminate L.
  destruct (Rle_dec v 0); [left; constructor; [cbn; tauto|constructor]|right; constructor; [|constructor]]. cbn. cut (5 <= v); [tauto|]. apply Rnot_lt_le. intros K. apply NS. constructor; [cbn; lra|constructor].
Qed.
Lemma seg_1 : seg_sep [I2 (-2) 12] [I2 (-2) 12] = ([I2 (-2) 12], [I2 0 5]).
Proof. unfold seg_sep, sep_abc, halfline_l, halfline_r. evf. reflexivity. Qed.
Lemma seg_2 : seg_sep [I2 0 (9 / 4)] [I2 0 (9 / 4)] = ([I2 0 0], [I2 0 (9 / 4)]).
Proof. unfold seg_sep, sep_abc, halfline_l, halfline_r. evf. reflexivity. Qed.
Lemma seg_3 : seg_sep [I2 (9 / 4) 5] [I2 (9 / 4) 5] = ([I2 5 5], [I2 (9 / 4) 5]).
Proof. unfold seg_sep, sep_abc, halfline_l, halfline_r. evf. reflexivity. Qed.
Lemma seg_b : cbis [I2 0 5] = Some ([I2 0 (9 / 4)], [I2 (9 / 4) 5]). Proof. apply cbis_1; lra. Qed.
Global Hint Rewrite seg_1 seg_2 seg_3 seg_b : pset.
Definition seg_tree : psn := PNode [I2 (-2) 12] [I2 0 5] (PLeaf [I2 0 0] [I2 0 (9 / 4)]) (PLeaf [I2 5 5] [I2 (9 / 4) 5]).
Lemma seg_sivia : ps_sivia cbis seg_sep (1 / 2) 2 (ps_new [I2 (-2) 12]) = Some seg_tree.
Proof. cbn [ps_sivia ps_new ps_in ps_out]. pgo. cbn [ps_sivia ps_new ps_in ps_out]. pgo. reflexivity. Qed.
Lemma seg_reunite : ps_reunite cdiff seg_tree = Some (false, seg_tree).
Proof. unfold seg_tree. cbn [ps_reunite]. cbv zeta. pgo. unfold ps_is_empty. pgo. reflexivity. Qed.
Lemma seg_op : op_ok 1 seg_S (OSivia cbis seg_sep (1 / 2) 2) /\ op_bd 1 seg_S (OSivia cbis seg_sep (1 / 2) 2).
Proof. split; [split; [apply cbis_pbis|apply seg_sep_ok]|exact (proj2 seg_sep_ok)]. Qed.
(** Sivia, Reunite, Reunite on [0,5]: the points -1 and 3 are classified. *)
Example C91_case : exists n, ps_run cdiff [OSivia cbis seg_sep (1 / 2) 2; OReunite; OReunite] (ps_new [I2 (-2) 12]) = Some n /\ reliable seg_S [I2 (-2) 12] n /\
  ps_inside n [3] = BYes /\ ps_inside n [-1] = BNo /\ ps_inside n [5] = BMaybe /\ ps_inside n [13] = BEmpty.
Proof.
  exists seg_tree. assert (H : ps_run cdiff [OSivia cbis seg_sep (1 / 2) 2; OReunite; OReunite] (ps_new [I2 (-2) 12]) = Some seg_tree).
  { cbn [ps_run]. rewrite seg_sivia, !seg_reunite. reflexivity. }
  split; auto. split.
  - apply (C91_bdry_partial 1 seg_S cdiff [I2 (-2) 12] [OSivia cbis seg_sep (1 / 2) 2; OReunite; OReunite]); [apply cdiff_lim|apply good_1; lra| | |exact H].
    + repeat apply Forall_cons; try apply Forall_nil; try exact Logic.I; apply seg_op.
    + repeat apply Forall_cons; try apply Forall_nil; try exact Logic.I; exact (proj2 seg_op).
  - unfold seg_tree. cbn [ps_inside ps_in ps_out]. pgo. cbn [ps_inside ps_in ps_out]. pgo. auto.
Qed.
Example C91_once_case : exists n, ps_run cdiff ([OSivia cbis seg_sep (1 / 2) 2] ++ [OReunite] ++ []) (ps_new [I2 (-2) 12]) = Some n /\ reliable seg_S [I2 (-2) 12] n /\ ps_inside n [3] = BYes.
Proof.
  exists seg_tree. assert (H : ps_run cdiff ([OSivia cbis seg_sep (1 / 2) 2] ++ [OReunite] ++ []) (ps_new [I2 (-2) 12]) = Some seg_tree).
  { cbn [ps_run app]. rewrite seg_sivia, seg_reunite. reflexivity. }
  split; auto. split.
  - apply (C91_once_partial 1 seg_S cdiff [I2 (-2) 12] [OSivia cbis seg_sep (1 / 2) 2] [] true); [apply cdiff_lim|apply good_1; lra| | |exact H].
    + repeat apply Forall_cons; try apply Forall_nil; try exact Logic.I; apply seg_op.
    + repeat constructor.
  - unfold seg_tree. cbn [ps_inside ps_in ps_out]. pgo. cbn [ps_inside ps_in ps_out]. pgo. auto.
Qed.
Example C91_no_abort_case : ps_reunite cdiff seg_tree <> None.
Proof.
  apply (C91_no_abort 1 seg_S cdiff [I2 (-2) 12] [OSivia cbis seg_sep (1 / 2) 2]); [apply cdiff_lim|apply good_1; lra| | |].
  - repeat apply Forall_cons; try apply Forall_nil; try exact Logic.I; apply seg_op.
  - repeat apply Forall_cons; try apply Forall_nil; try exact Logic.I; exact (proj2 seg_op).
  - cbn [ps_run]. rewrite seg_sivia. reflexivity.
Qed.

(** *** Two calls to Reunite *)
(** a separator of [0,100], that removes the point 0 of the boundary from x_in of the box [0,180] *)
Definition two_S (p : list R) : Prop := inb p [I2 0 100].
Definition two_sep : sep_t := fun a b =>
  if box_eqb a [I2 (-200) 400] then (a, b_inter b [I2 0 400])
  else if box_eqb a [I2 0 180] then (b_inter a [I2 60 180], b_inter b [I2 0 100])
  else if box_eqb a [I2 180 400] then (a, b_inter b [I2 0 100]) else (a, b).
Ltac beq := match goal with |- context [box_eqb ?a ?b] => destruct (box_eqb a b) eqn:? end.
Lemma two_sep_ok : psep 1 two_S two_sep.
Proof.
  assert (GI : forall (b : box) u v, u <= v -> good 1 b -> good 1 (b_inter b [I2 u v])) by (intros b u v L G; apply good_inter; auto; apply good_1; auto).
  assert (PI : forall (b : box) u v p, u <= v -> good 1 b -> (inb p (b_inter b [I2 u v]) <-> inb p b /\ inb p [I2 u v])) by (intros b u v p L G; apply (inter_pts 1); auto; apply good_1; auto).
  unfold two_sep. constructor; intros a b.
  - intros p Ga Gb Hp NS. repeat beq; cbn [fst]; auto. apply box_eqb_eq in Heqb1. subst a. apply PI; [lra|auto|]. split; auto.
    inversion Hp as [|v ? q ? Hv Hq]; subst. inversion Hq; subst. constructor; [|constructor]. cbn in *. split; [|lra]. apply Rnot_lt_le. intros K. apply NS. constructor; [cbn; lra|constructor].
  - intros p Ga Gb Hp HS. inversion HS as [|v ? q ? Hv Hq]; subst. inversion Hq; subst. repeat beq; cbn [snd]; auto; apply PI; auto; try lra; split; auto; constructor; try constructor; cbn in *; lra.
  - intros Ga Gb. repeat beq; cbn [fst snd]; split; auto; apply GI; auto; lra.
  - intros p Ga Gb. repeat beq; cbn [fst snd]; split; auto; intros K; apply PI in K; auto; try lra; tauto.
Qed.
Lemma two_1 : two_sep [I2 (-200) 400] [I2 (-200) 400] = ([I2 (-200) 400], [I2 0 400]).
Proof. unfold two_sep. evf. reflexivity. Qed.
Lemma two_2 : two_sep [I2 0 180] [I2 0 180] = ([I2 60 180], [I2 0 100]).
Proof. unfold two_sep. evf. reflexivity. Qed.
Lemma two_3 : two_sep [I2 180 400] [I2 180 400] = ([I2 180 400], [Emp]).
Proof. unfold two_sep. evf. reflexivity. Qed.
Lemma two_4 : two_sep [I2 60 78] [I2 60 78] = ([I2 60 78], [I2 60 78]).
Proof. unfold two_sep. evf. reflexivity. Qed.
Lemma two_5 : two_sep [I2 78 100] [I2 78 100] = ([I2 78 100], [I2 78 100]).
Proof. unfold two_sep. evf. reflexivity. Qed.
Lemma two_b1 : cbis [I2 0 400] = Some ([I2 0 180], [I2 180 400]). Proof. apply cbis_1; lra. Qed.
Lemma two_b2 : cbis [I2 60 100] = Some ([I2 60 78], [I2 78 100]). Proof. apply cbis_1; lra. Qed.
Global Hint Rewrite two_1 two_2 two_3 two_4 two_5 two_b1 two_b2 : pset.
Definition two_tree : psn := PNode [I2 (-200) 400] [I2 0 400] (PNode [I2 60 180] [I2 0 100] (PLeaf [I2 60 78] [I2 60 78]) (PLeaf [I2 78 100] [I2 78 100])) (PLeaf [I2 180 400] [Emp]).
Definition two_tree1 : psn := PNode [I2 (-200) 400] [I2 0 100] (PLeaf [I2 60 78] [I2 60 78]) (PLeaf [I2 78 100] [I2 78 100]).
Definition two_tree2 : psn := PNode [I2 (-200) 400] [I2 60 100] (PLeaf [I2 60 78] [I2 60 78]) (PLeaf [I2 78 100] [I2 78 100]).
Lemma two_sivia : ps_sivia cbis two_sep 30 3 (ps_new [I2 (-200) 400]) = Some two_tree.
Proof. cbn [ps_sivia ps_new ps_in ps_out]. pgo. cbn [ps_sivia ps_new ps_in ps_out]. pgo. cbn [ps_sivia ps_new ps_in ps_out]. pgo. reflexivity. Qed.
Lemma two_reunite1 : ps_reunite cdiff two_tree = Some (false, two_tree1).
Proof. unfold two_tree. cbn [ps_reunite]. cbv zeta. pgo. unfold ps_is_empty. pgo. unfold ps_remove, ps_is_empty, ps_set. pgo. reflexivity. Qed.
Lemma two_reunite2 : ps_reunite cdiff two_tree1 = Some (false, two_tree2).
Proof. unfold two_tree1. cbn [ps_reunite]. cbv zeta. pgo. unfold ps_is_empty. pgo. unfold ps_set. reflexivity. Qed.
(** Sivia, Reunite, Reunite with a separator of the set [0,100]: isInside says that 30 is not in the set. *)
Theorem C91_refuted : exists N S diff E l n p, pdiff_lim N diff /\ good N E /\ Forall (op_ok N S) l /\ ps_run diff l (ps_new E) = Some n /\
  inb p E /\ S p /\ ps_inside n p = BNo.
Proof.
  exists 1%nat, two_S, cdiff, [I2 (-200) 400], [OSivia cbis two_sep 30 3; OReunite; OReunite], two_tree2, [30].
  refine (conj (cdiff_lim 1) (conj _ (conj _ (conj _ (conj _ (conj _ _)))))).
  - apply good_1; lra.
  - repeat apply Forall_cons; try apply Forall_nil; try exact Logic.I. split; [apply cbis_pbis|apply two_sep_ok].
  - cbn [ps_run]. rewrite two_sivia, two_reunite1, two_reunite2. reflexivity.
  - constructor; [cbn; lra|constructor].
  - constructor; [cbn; lra|constructor].
  - unfold two_tree2. cbn [ps_inside ps_in ps_out]. pgo. reflexivity.
Qed.
(** The first call simplifies the paving, but returns false. *)
Example C91_return_case : exists n n', ps_reunite cdiff n = Some (false, n') /\ (ps_leaves n' < ps_leaves n)%nat.
Proof. exists two_tree, two_tree1. split; [apply two_reunite1|cbn; lia]. Qed.

Print Assumptions C91_once_partial.
Print Assumptions C91_bdry_partial.
Print Assumptions C91_no_abort.
Print Assumptions C91_return.
Print Assumptions C91_refuted.
