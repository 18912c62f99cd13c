(** * C75, C76: pavings of thick sets, built by Sivia, and the contractors and tests based on them *)

From Coq Require Import Reals Lra Lia Bool List.
Import ListNotations.
From Verif Require Import Itv Static PropsStatic Paving PropsSivia PropsSep2 Concrete Thick PropsThickBool ThickPav.
Open Scope R_scope.

(** ** Specification *)
(** [(v,b)] is a leaf, resp. a node, of the tree *)
Inductive leafof (v : tb) (b : box) : pn -> Prop :=
| lo_leaf : leafof v b (PnLeaf v b)
| lo_l w c l r : leafof v b l -> leafof v b (PnNode w c l r)
| lo_r w c l r : leafof v b r -> leafof v b (PnNode w c l r).
Inductive nodeof (v : tb) (b : box) : pn -> Prop :=
| no_leaf : nodeof v b (PnLeaf v b)
| no_node l r : nodeof v b (PnNode v b l r)
| no_l w c l r : nodeof v b l -> nodeof v b (PnNode w c l r)
| no_r w c l r : nodeof v b r -> nodeof v b (PnNode w c l r).
(** [l] and [r] are the two parts of [b] on each side of a coordinate *)
Inductive split2 : box -> box -> box -> Prop :=
| sp_here i il ir m t : (forall w, In w il <-> In w i /\ w <= m) -> (forall w, In w ir <-> In w i /\ m <= w) ->
    split2 (i :: t) (il :: t) (ir :: t)
| sp_next i b l r : split2 b l r -> split2 (i :: b) (i :: l) (i :: r).
(** a tree made by bisections *)
Inductive bintree : pn -> Prop :=
| bt_leaf v b : bintree (PnLeaf v b)
| bt_node v b l r : split2 b (pn_box l) (pn_box r) -> bintree l -> bintree r -> bintree (PnNode v b l r).
(** the values of the leaves, resp. of all the nodes, enclose the statuses of the points *)
Definition sound (st : list R -> stat) (n : pn) : Prop := forall v b p, leafof v b n -> inb p b -> sem v (st p).
Definition nsound (st : list R -> stat) (n : pn) : Prop := forall v b p, nodeof v b n -> inb p b -> sem v (st p).
(** a test that answers right on every box *)
Definition test_ok (test : box -> tb) (st : list R -> stat) : Prop := forall b p, inb p b -> sem (test b) (st p).
(** two boxes that overlap in each dimension on more than one point *)
Definition fat (x b : box) : Prop := Forall2 (fun i j => exists a c, a < c /\ In a i /\ In a j /\ In c i /\ In c j) x b.
(** the bisector (IBEX) cuts in two the boxes that are too big *)
Definition bis_split (bigger : box -> bool) (bis : box -> box * box) : Prop :=
  forall b, bigger b = true -> split2 b (fst (bis b)) (snd (bis b)).

(** ** Proofs *)
Lemma leaf_node v b n : leafof v b n -> nodeof v b n.
Proof. induction 1; [apply no_leaf|apply no_l; auto|apply no_r; auto]. Qed.
Lemma split_cover b l r p : split2 b l r -> inb p b -> inb p l \/ inb p r.
Proof.
  intros H. revert p. induction H as [i il ir m t Hl Hr|i b l r H IH]; intros p Hp; inversion Hp as [|w ? ps ? P0 Ps]; subst.
  - destruct (Rle_dec w m); [left|right]; constructor; auto; [apply Hl|apply Hr]; split; auto; lra.
  - destruct (IH ps Ps); [left|right]; constructor; auto.
Qed.
Lemma split_sub b l r p : split2 b l r -> inb p l \/ inb p r -> inb p b.
Proof.
  intros H. revert p. induction H as [i il ir m t Hl Hr|i b l r H IH]; intros p [Hp|Hp]; inversion Hp as [|w ? ps ? P0 Ps]; subst;
    constructor; auto; [apply Hl in P0; tauto|apply Hr in P0; tauto| |]; apply IH; auto.
Qed.
Lemma split_len b l r : split2 b l r -> length l = length b /\ length r = length b.
Proof. induction 1 as [|i b l r H [A B]]; cbn; auto. Qed.
Lemma split_fat b l r x p : split2 b l r -> fat x b -> inb p x -> inb p b -> (inb p l /\ fat x l) \/ (inb p r /\ fat x r).
Proof.
  intros H. revert x p. induction H as [i il ir m t Hl Hr|i b l r H IH]; intros x p Hf Hx Hb;
    inversion Hb as [|w ? ps ? P0 Ps]; subst; inversion Hx as [|? xi ? xs X0 Xs]; subst; inversion Hf as [|? ? ? ? F0 Fs]; subst.
  - destruct F0 as (a & c & L & A1 & A2 & C1 & C2).
    assert (Left : w <= m -> (a < m \/ w < m) -> (inb (w :: ps) (il :: t) /\ fat (xi :: xs) (il :: t))).
    { intros Lw H. split; [constructor; auto; apply Hl; auto|]. constructor; auto.
      destruct (Rlt_dec a w) as [La|La].
      - exists a, w. rewrite !Hl. repeat split; auto; lra.
      - destruct H as [H|H].
        + exists w, (Rmin c m). assert (w < Rmin c m) by (unfold Rmin; destruct (Rle_dec c m); lra).
          assert (w <= Rmin c m <= c) by (split; [lra|apply Rmin_l]).
          rewrite !Hl. repeat split; auto; try (apply (In_convex w _ c); auto; lra). apply Rmin_r.
        + exists w, (Rmin c m). assert (w < Rmin c m) by (unfold Rmin; destruct (Rle_dec c m); lra).
          assert (w <= Rmin c m <= c) by (split; [lra|apply Rmin_l]).
          rewrite !Hl. repeat split; auto; try (apply (In_convex w _ c); auto; lra). apply Rmin_r. }
    assert (Right : m <= w -> (m < c \/ m < w) -> (inb (w :: ps) (ir :: t) /\ fat (xi :: xs) (ir :: t))).
    { intros Lw H. split; [constructor; auto; apply Hr; auto|]. constructor; auto.
      destruct (Rlt_dec w c) as [La|La].
      - exists w, c. rewrite !Hr. repeat split; auto; lra.
      - exists (Rmax a m), w. assert (Rmax a m < w) by (unfold Rmax; destruct (Rle_dec a m); lra).
        assert (a <= Rmax a m <= w) by (split; [apply Rmax_l|lra]).
        rewrite !Hr. repeat split; auto; try (apply (In_convex a _ w); auto; lra). apply Rmax_r. }
    destruct (Rlt_dec w m); [left; apply Left; lra|]. destruct (Rlt_dec m w); [right; apply Right; lra|].
    destruct (Rlt_dec a m); [left; apply Left; lra|right; apply Right; lra].
  - destruct (IH xs ps Fs Xs Ps) as [[A B]|[A B]]; [left|right]; split; constructor; auto.
Qed.

(** *** Boxes that overlap *)
Lemma deg_two i a c : a < c -> In a i -> In c i -> is_degenerated i = false /\ is_empty i = false.
Proof.
  destruct i as [|[l|] [h|]]; cbn; try tauto. intros H A B. split; auto. unfold Reqb. destruct (Req_EM_T l h); auto. lra.
Qed.
Lemma fat_true n x : fat x (pn_box n) -> fat_meet n x = true.
Proof.
  unfold fat_meet. generalize (pn_box n) as b. intros b H.
  assert (K : existsb is_empty (map2 inter b x) = false /\ existsb is_degenerated (map2 inter b x) = false /\
              b_is_empty b = false /\ b_is_empty x = false).
  { induction H as [|i j x b (a & c & L & A1 & A2 & C1 & C2) H IH]; [auto|]. destruct IH as (I1 & I2 & I3 & I4). cbn.
    destruct (deg_two (inter j i) a c L) as [D E]; try (apply In_inter; auto). rewrite D, E, I1, I2.
    destruct (deg_two i a c L A1 C1) as [_ ->]. destruct (deg_two j a c L A2 C2) as [_ ->]. auto. }
  destruct K as (K1 & K2 & K3 & K4). unfold b_is_flat, b_inter. cbv zeta. rewrite K3, K4, K1, K2.
  assert (E : b_is_empty (map2 inter b x) = false).
  { destruct (map2 inter b x) as [|i t]; auto. cbn in K1 |- *. apply orb_false_iff in K1. tauto. }
  rewrite E. reflexivity.
Qed.
Lemma nonflat_fat x b : Forall wf x -> b_is_flat x = false -> Forall2 sub x b -> fat x b.
Proof.
  intros W F. apply orb_false_iff in F as [_ F]. intros S'. induction S' as [|i j x b Hs S' IH]; [constructor|].
  cbn in F. apply orb_false_iff in F as [F Fs]. inversion W as [|? ? Wi Ws]; subst. constructor; [|apply IH; auto].
  destruct i as [|[l|] [h|]]; cbn in F, Wi; try discriminate.
  - unfold Reqb in F. destruct (Req_EM_T l h); [discriminate|]. exists l, h. repeat split; try (apply Hs); cbn; lra.
  - exists l, (l + 1). repeat split; try (apply Hs); cbn; auto; lra.
  - exists (h - 1), h. repeat split; try (apply Hs); cbn; auto; lra.
  - exists 0, 1. repeat split; try (apply Hs); cbn; auto; lra.
Qed.
Lemma subset_fat x b : length x = length b -> Forall wf x -> b_is_flat x = false -> b_is_subset x b = true -> fat x b.
Proof.
  intros L W F H. apply nonflat_fat; auto. pose proof F as F'. apply orb_false_iff in F' as [E _]. unfold b_is_subset in H. rewrite E in H.
  destruct (b_is_empty b); [discriminate|]. clear F W E. revert b L H. induction x as [|i x IH]; intros [|j b] L H; try discriminate; constructor; cbn in H;
    apply andb_true_iff in H as [H K]; auto using is_subset_sub.
Qed.

(** *** The loop over the nodes *)
Inductive hit (x : box) (v : tb) (b : box) : pn -> Prop :=
| hit_leaf : fat_meet (PnLeaf v b) x = true -> hit x v b (PnLeaf v b)
| hit_l w c l r : fat_meet (PnNode w c l r) x = true -> hit x v b l -> hit x v b (PnNode w c l r)
| hit_r w c l r : fat_meet (PnNode w c l r) x = true -> hit x v b r -> hit x v b (PnNode w c l r).
Lemma hit_exists n x p : bintree n -> fat x (pn_box n) -> inb p x -> inb p (pn_box n) ->
  exists v b, hit x v b n /\ inb p b.
Proof.
  induction 1 as [v b|v b l r Sp Hl IHl Hr IHr]; intros Hf Hx Hb; cbn in *.
  - exists v, b. split; auto. apply hit_leaf. apply fat_true. auto.
  - destruct (split_fat _ _ _ _ _ Sp Hf Hx Hb) as [[A B]|[A B]].
    + destruct (IHl B Hx A) as (v' & b' & P & Q). exists v', b'. split; auto. apply hit_l; auto. apply fat_true; auto.
    + destruct (IHr B Hx A) as (v' & b' & P & Q). exists v', b'. split; auto. apply hit_r; auto. apply fat_true; auto.
Qed.
Lemma hit_leafof x v b n : hit x v b n -> leafof v b n.
Proof. induction 1; [apply lo_leaf|apply lo_l; auto|apply lo_r; auto]. Qed.
Lemma hit_fat x v b n : hit x v b n -> fat_meet (PnLeaf v b) x = true.
Proof. induction 1; auto. Qed.
Fixpoint pn_size (n : pn) : nat := match n with PnLeaf _ _ => 1 | PnNode _ _ l r => S (pn_size l + pn_size r) end.
Definition sizes (L : list pn) : nat := fold_right (fun n k => (pn_size n + k)%nat) 0%nat L.
Lemma sizes_app L M : sizes (L ++ M) = (sizes L + sizes M)%nat.
Proof. induction L; cbn; auto. unfold sizes in *. cbn. lia. Qed.

Section Walk.
Context {A : Type} (f : A -> tb -> box -> A) (x : box).
Lemma walk_some fuel : forall L res, (sizes L < fuel)%nat -> exists r, walk f x fuel L res = Some r.
Proof.
  induction fuel as [|k IH]; intros L res H; [lia|]. cbn [walk]. destruct L as [|n L]; [eauto|].
  change (sizes (n :: L)) with (pn_size n + sizes L)%nat in H.
  destruct (fat_meet n x); [|apply IH; destruct n; cbn in H; lia]. destruct n as [v b|v b l r].
  - apply IH. cbn in H. lia.
  - apply IH. rewrite sizes_app. cbn in *. lia.
Qed.
Lemma walk_always (I : A -> Prop) fuel : forall L res r,
  (forall a n v b, List.In n L -> leafof v b n -> fat_meet (PnLeaf v b) x = true -> I a -> I (f a v b)) ->
  I res -> walk f x fuel L res = Some r -> I r.
Proof.
  induction fuel as [|k IH]; intros L res r H H0; [discriminate|]. cbn [walk]. destruct L as [|n L]; [intros E; injection E as <-; auto|].
  destruct (fat_meet n x) eqn:Ef.
  - destruct n as [v b|v b l r'].
    + intros E. eapply IH; [| |exact E]; [intros a n v' b' Hn Hl Hf Ia; apply (H a n v' b'); auto; right; auto|]. apply (H res (PnLeaf v b) v b); auto; [left; auto|apply lo_leaf].
    + intros E. eapply IH; [| |exact E]; auto. intros a n v' b' Hn Hl Hf Ia. apply in_app_or in Hn as [Hn|[<-|[<-|[]]]].
      * apply (H a n v' b'); auto. right; auto.
      * apply (H a (PnNode v b l r') v' b'); auto; [left; auto|apply lo_l; auto].
      * apply (H a (PnNode v b l r') v' b'); auto; [left; auto|apply lo_r; auto].
  - intros E. eapply IH; [| |exact E]; auto. intros. eapply H; eauto. right; auto.
Qed.
Lemma walk_reaches (I Q : A -> Prop) (good : tb -> box -> Prop) fuel : forall L res r,
  (forall a n v b, List.In n L -> leafof v b n -> I a -> I (f a v b)) ->
  (forall a n v b, List.In n L -> leafof v b n -> I a -> Q a -> Q (f a v b)) ->
  (forall a n v b, List.In n L -> leafof v b n -> I a -> good v b -> Q (f a v b)) ->
  I res -> (Q res \/ exists n v b, List.In n L /\ hit x v b n /\ good v b) -> walk f x fuel L res = Some r -> Q r.
Proof.
  induction fuel as [|k IH]; intros L res r H1 H2 H3 H0 H; [discriminate|]. cbn [walk].
  destruct L as [|n L]; [intros E; injection E as <-; destruct H as [H|(n & _ & _ & [] & _)]; auto|].
  assert (T1 : forall a n v b, List.In n L -> leafof v b n -> I a -> I (f a v b)) by (intros; eapply H1; eauto; right; auto).
  assert (T2 : forall a n v b, List.In n L -> leafof v b n -> I a -> Q a -> Q (f a v b)) by (intros; eapply H2; eauto; right; auto).
  assert (T3 : forall a n v b, List.In n L -> leafof v b n -> I a -> good v b -> Q (f a v b)) by (intros; eapply H3; eauto; right; auto).
  destruct (fat_meet n x) eqn:Ef.
  - destruct n as [v b|v b l r'].
    + intros E. eapply IH; [exact T1|exact T2|exact T3| | |exact E].
      * apply (H1 res (PnLeaf v b) v b); auto; [left; auto|apply lo_leaf].
      * destruct H as [H|(m & w & c & [<-|Hm] & Hh & G)].
        -- left. apply (H2 res (PnLeaf v b) v b); auto; [left; auto|apply lo_leaf].
        -- left. inversion Hh; subst. apply (H3 res (PnLeaf v b) v b); auto; [left; auto|apply lo_leaf].
        -- right. eauto 8.
    + intros E. eapply IH; [| | | | |exact E]; auto.
      * intros a m w c Hm. apply in_app_or in Hm as [Hm|[<-|[<-|[]]]]; intros; [apply (H1 a m w c)|apply (H1 a (PnNode v b l r') w c)|apply (H1 a (PnNode v b l r') w c)]; auto; try (right; assumption); try (left; reflexivity); [apply lo_l|apply lo_r]; auto.
      * intros a m w c Hm. apply in_app_or in Hm as [Hm|[<-|[<-|[]]]]; intros; [apply (H2 a m w c)|apply (H2 a (PnNode v b l r') w c)|apply (H2 a (PnNode v b l r') w c)]; auto; try (right; assumption); try (left; reflexivity); [apply lo_l|apply lo_r]; auto.
      * intros a m w c Hm. apply in_app_or in Hm as [Hm|[<-|[<-|[]]]]; intros; [apply (H3 a m w c)|apply (H3 a (PnNode v b l r') w c)|apply (H3 a (PnNode v b l r') w c)]; auto; try (right; assumption); try (left; reflexivity); [apply lo_l|apply lo_r]; auto.
      * destruct H as [H|(m & w & c & [<-|Hm] & Hh & G)]; auto; right.
        -- inversion Hh; subst; [exists l, w, c|exists r', w, c]; (split; [apply in_or_app; right; cbn; auto|auto]).
        -- exists m, w, c. split; auto. apply in_or_app. auto.
  - intros E. eapply IH; [exact T1|exact T2|exact T3| | |exact E]; auto.
    destruct H as [H|(m & w & c & [<-|Hm] & Hh & G)]; auto; right; [|eauto 8].
    exfalso. inversion Hh; subst; congruence.
Qed.
End Walk.

(** all the boxes of a tree have the dimension of the root *)
Lemma leaf_len v b n : bintree n -> leafof v b n -> length b = length (pn_box n).
Proof.
  intros H. revert v b. induction H as [w c|w c l r Sp Hl IHl Hr IHr]; intros v b K; inversion K; subst; cbn; auto.
  - rewrite (IHl _ _ H0). apply (split_len _ _ _ Sp).
  - rewrite (IHr _ _ H0). apply (split_len _ _ _ Sp).
Qed.
Lemma leaf_sub v b n p : bintree n -> leafof v b n -> inb p b -> inb p (pn_box n).
Proof.
  intros H. revert v b. induction H as [w c|w c l r Sp Hl IHl Hr IHr]; intros v b K Hp; inversion K; subst; cbn; auto;
    apply (split_sub _ _ _ _ Sp); [left; eapply IHl; eauto|right; eapply IHr; eauto].
Qed.

(** ** C76: contractors and test based on a paving *)
Lemma ctc_keeps skip fuel root x p : bintree root -> (sizes [root] < fuel)%nat -> Forall wf x -> b_is_flat x = false ->
  length x = length (pn_box root) -> inb p x ->
  (forall v b, leafof v b root -> inb p b -> v <> skip) ->
  exists y, tp_ctc skip fuel root x = Some y /\ inb p y.
Proof.
  intros Bt Fu W Fl L Hp Hn. unfold tp_ctc. destruct (b_is_subset x (pn_box root)) eqn:E; cbn [negb]; [|eauto].
  destruct (walk_some (fun res v b => if negb (teqb v skip) then b_hull res b else res) x fuel [root] (repeat Emp (length x)) Fu) as [res Er].
  rewrite Er. exists (b_inter x res). split; auto. apply b_inter_in; auto.
  assert (Hf : fat x (pn_box root)) by (apply subset_fat; auto).
  assert (Hr : inb p (pn_box root)).
  { unfold b_is_subset in E. pose proof Fl as F'. apply orb_false_iff in F' as [E' _]. rewrite E' in E. destruct (b_is_empty (pn_box root)); [discriminate|].
    clear -E L Hp. revert E L. generalize (pn_box root). induction Hp as [|w i p x P0 Ps IH]; intros [|j b] E L; try discriminate; constructor; cbn in E;
      apply andb_true_iff in E as [E K]; [apply (is_subset_sub _ _ E); auto|apply IH; auto]. }
  destruct (hit_exists root x p Bt Hf Hp Hr) as (v & b & Hh & Hb).
  refine (walk_reaches _ x (fun a => length a = length x) (fun a => inb p a) (fun v b => inb p b /\ v <> skip) fuel [root] _ res _ _ _ _ _ Er).
  - intros a n w c [<-|[]] Hl La. destruct (negb _); auto. rewrite b_hull_len; auto. rewrite (leaf_len _ _ _ Bt Hl). congruence.
  - intros a n w c [<-|[]] Hl La Hq. destruct (negb _); auto. apply b_hull_in_l; auto. rewrite (leaf_len _ _ _ Bt Hl). congruence.
  - intros a n w c [<-|[]] Hl La [G1 G2].
    assert (teqb w skip = false) as -> by (destruct w, skip; cbn; auto; congruence). cbn [negb]. apply b_hull_in_r; auto. rewrite (leaf_len _ _ _ Bt Hl). congruence.
  - apply repeat_length.
  - right. exists root, v, b. split; [left; auto|]. split; auto. split; auto. eapply Hn; eauto. eapply hit_leafof; eauto.
Qed.
(** [ctcOutside] only removes points that are outside, [ctcInside] only points that are inside, from a
    box that is not flat. *)
Theorem C76_outside_partial : forall st root fuel x p, bintree root -> sound st root -> (sizes [root] < fuel)%nat ->
  Forall wf x -> length x = length (pn_box root) -> b_is_flat x = false -> inb p x -> st p <> sOut ->
  exists y, tp_ctc TOut fuel root x = Some y /\ inb p y.
Proof.
  intros st root fuel x p Bt So Fu W L Fl Hp Hs. apply ctc_keeps; auto. intros v b Hl Hb ->. apply Hs. apply (So _ _ _ Hl Hb).
Qed.
Theorem C76_inside_partial : forall st root fuel x p, bintree root -> sound st root -> (sizes [root] < fuel)%nat ->
  Forall wf x -> length x = length (pn_box root) -> b_is_flat x = false -> inb p x -> st p <> sIn ->
  exists y, tp_ctc TIn fuel root x = Some y /\ inb p y.
Proof.
  intros st root fuel x p Bt So Fu W L Fl Hp Hs. apply ctc_keeps; auto. intros v b Hl Hb ->. apply Hs. apply (So _ _ _ Hl Hb).
Qed.
(** They do contract: inside the paving nothing remains out of a box enclosing the other leaves. *)
Theorem C76_contracts : forall skip root fuel x y h, bintree root -> Forall wf x -> length x = length (pn_box root) ->
  (forall v b, leafof v b root -> Forall wf b) -> length h = length x -> Forall wf h ->
  b_is_subset x (pn_box root) = true ->
  (forall v b, leafof v b root -> v <> skip -> fat_meet (PnLeaf v b) x = true -> Forall2 sub b h) ->
  tp_ctc skip fuel root x = Some y -> Forall2 sub y x /\ forall p, inb p y -> inb p h.
Proof.
  intros skip root fuel x y h Bt W L Wl Lh Wh E Hh. unfold tp_ctc. rewrite E. cbn [negb].
  destruct (walk _ _ _ _ _) as [res|] eqn:Er; [|discriminate]. intros Q. injection Q as <-.
  assert (K : length res = length x /\ Forall wf res /\ Forall2 sub res h).
  { refine (walk_always _ x (fun a => length a = length x /\ Forall wf a /\ Forall2 sub a h) fuel [root] _ res _ _ Er).
    - intros a n v b [<-|[]] Hl Hf (La & Wa & Sa). destruct (teqb v skip) eqn:Ev; cbn [negb]; auto.
      assert (Lb : length b = length x) by (rewrite (leaf_len _ _ _ Bt Hl); auto).
      refine (conj _ (conj _ _)); [rewrite b_hull_len; congruence|apply b_hull_wf; eauto|apply b_hull_sub; eauto].
      eapply Hh; eauto. intros ->. destruct skip; discriminate.
    - refine (conj (repeat_length _ _) (conj _ _)); [apply Forall_forall; intros i Hi; apply repeat_spec in Hi; subst; exact I|].
      rewrite <- Lh. clear. induction h; constructor; auto. intros w []. }
  destruct K as (K1 & K2 & K3). split; [apply b_inter_sub; congruence|].
  intros p Hp. assert (inb p res) by (apply inb_inter in Hp; [tauto|congruence]).
  clear -H K3. revert p H. induction K3 as [|i j res h Hs K3 IH]; intros p Hp; [exact Hp|]. inversion Hp; subst. constructor; auto. apply IH; auto.
Qed.
(** [contains] encloses the status of every point of the box in the paving, when they overlap. *)
Theorem C76_contains_partial : forall st root fuel x p, bintree root -> sound st root -> (sizes [root] < fuel)%nat ->
  fat x (pn_box root) -> inb p x -> inb p (pn_box root) ->
  exists v, tp_contains fuel root x = Some v /\ sem v (st p).
Proof.
  intros st root fuel x p Bt So Fu Hf Hp Hr. unfold tp_contains.
  destruct (walk_some (fun res v (_ : box) => opUnion res v) x fuel [root] TEmpty Fu) as [res Er]. rewrite Er. eexists. split; [reflexivity|].
  destruct (hit_exists root x p Bt Hf Hp Hr) as (v & b & Hh & Hb).
  assert (K : sem res (st p)).
  { refine (walk_reaches _ x (fun _ => True) (fun a => sem a (st p)) (fun v b => sem v (st p)) fuel [root] TEmpty res _ _ _ I _ Er); auto.
    - intros a n w c _ _ _ Q. apply C74_union. auto.
    - intros a n w c _ _ _ Q. apply C74_union. auto.
    - right. exists root, v, b. split; [left; auto|]. split; auto. eapply So; eauto. eapply hit_leafof; eauto. }
  destruct (negb _); auto. apply C74_union. auto.
Qed.
(** and gives no status that no leaf has: with one value on the leaves met, this value *)
Theorem C76_contains_least : forall root fuel x u, b_is_subset x (pn_box root) = true ->
  (forall v b, leafof v b root -> fat_meet (PnLeaf v b) x = true -> tsub v u) ->
  forall v, tp_contains fuel root x = Some v -> tsub v u.
Proof.
  intros root fuel x u E H v. unfold tp_contains. rewrite E. cbn [negb]. destruct (walk _ _ _ _ _) as [res|] eqn:Er; [|discriminate]. intros Q. injection Q as <-.
  refine (walk_always _ x (fun a => tsub a u) fuel [root] TEmpty res _ _ Er); [|intros s []].
  intros a n v b [<-|[]] Hl Hf Ha. apply C74_union_least; auto. eapply H; eauto.
Qed.
(** On a flat box (here the point 1 of a paving [0,2], IN) the contractor loses every point and the
    answer of [contains] is the empty set. *)
Theorem C76_outside_refuted : exists st root x p y fuel, bintree root /\ sound st root /\ inb p x /\ st p = sIn /\
  tp_ctc TOut fuel root x = Some y /\ ~ inb p y.
Proof.
  exists (fun _ => sIn), (PnLeaf TIn [I2 0 2]), [I2 1 1], [1], [Emp], 5%nat.
  refine (conj (bt_leaf _ _) (conj _ (conj _ (conj eq_refl (conj _ _))))).
  - intros v b p H _. inversion H; subst. reflexivity.
  - constructor; [unfold I2; cbn; lra|constructor].
  - unfold tp_ctc, b_is_subset, fat_meet, I2. cbn. rdec. cbn. unfold fat_meet, b_inter, b_is_flat. cbn.
    rewrite Rmax_right, Rmin_right by lra. unfold mk. rdec. cbn. unfold Reqb. destruct (Req_EM_T 1 1); [|lra]. cbn. reflexivity.
  - intros H. inversion H; contradiction.
Qed.
Theorem C76_contains_refuted : exists st root x p fuel, bintree root /\ sound st root /\ inb p x /\ inb p (pn_box root) /\ st p = sIn /\
  tp_contains fuel root x = Some TEmpty.
Proof.
  exists (fun _ => sIn), (PnLeaf TIn [I2 0 2]), [I2 1 1], [1], 5%nat.
  refine (conj (bt_leaf _ _) (conj _ (conj _ (conj _ (conj eq_refl _))))).
  - intros v b p H _. inversion H; subst. reflexivity.
  - constructor; [unfold I2; cbn; lra|constructor].
  - constructor; [unfold I2; cbn; lra|constructor].
  - unfold tp_contains, b_is_subset, fat_meet, I2. cbn. rdec. cbn. unfold fat_meet, b_inter, b_is_flat. cbn.
    rewrite Rmax_right, Rmin_right by lra. unfold mk. rdec. cbn. unfold Reqb. destruct (Req_EM_T 1 1); [|lra]. cbn. reflexivity.
Qed.

(** ** C75: Sivia *)
Section Sivia.
Context (test : box -> tb) (op : tb -> tb -> tb) (bigger : box -> bool) (bis : box -> box * box).
Context (K : tb -> box -> Prop) (st : list R -> stat).
Context (Hb : bis_split bigger bis).
Context (Kmono : forall v b c, K v b -> (forall p, inb p c -> inb p b) -> K v c).
Context (Kop : forall v b p, K v b -> inb p b -> sem (op v (test b)) (st p)).
Lemma sivia_node fuel : forall n n', bintree n -> (forall v b, nodeof v b n -> K v b) ->
  sivia test op bigger bis fuel n = Some n' ->
  pn_box n' = pn_box n /\ bintree n' /\ nsound st n' /\
  forall v b, leafof v b n' -> is_singleton v = true \/ bigger b = false.
Proof.
  induction fuel as [|k IH]; intros n n' Bt Hn; [discriminate|]. cbn [sivia]. cbv zeta.
  set (b := pn_box n). set (v0 := op (pn_val n) (test b)). set (v := if teqb v0 TEmpty && bigger b then TUnk else v0).
  assert (Kn : K (pn_val n) b) by (apply Hn; unfold b; destruct n; [apply no_leaf|apply no_node]).
  assert (Sv : forall p, inb p b -> sem v (st p)).
  { intros p Hp. unfold v. destruct (_ && _); [exact I|]. apply Kop; auto. }
  destruct (negb (is_singleton v) && bigger b) eqn:E.
  - assert (Bb : bintree (pn_bisect bis n) /\ (forall w c, nodeof w c (pn_bisect bis n) -> K w c) /\ pn_box (pn_bisect bis n) = b).
    { unfold b. destruct n as [w c|w c l r]; [|cbn; auto]. cbn. apply andb_true_iff in E as [_ Eb]. unfold b in Eb. cbn in Eb. pose proof (Hb c Eb) as Sp. destruct (bis c) as [b1 b2]. cbn in Sp.
      split; [apply bt_node; cbn; auto; apply bt_leaf|]. split; auto. cbn in Kn. unfold b in Kn. cbn in Kn.
      intros w' c' H. inversion H; subst; auto.
      - inversion H1; subst. eapply Kmono; eauto. intros p Hp. apply (split_sub _ _ _ _ Sp). auto.
      - inversion H1; subst. eapply Kmono; eauto. intros p Hp. apply (split_sub _ _ _ _ Sp). auto. }
    destruct Bb as (B1 & B2 & B3). destruct (pn_bisect bis n) as [w c|w c l r] eqn:En; [discriminate|].
    assert (split2 c (pn_box l) (pn_box r) /\ bintree l /\ bintree r) as (Sp & Bl & Br) by (inversion B1; subst; auto). cbn in B3.
    destruct (sivia test op bigger bis k l) as [l'|] eqn:El; [|discriminate]. destruct (sivia test op bigger bis k r) as [r'|] eqn:Er; [|discriminate].
    intros Q. injection Q as <-.
    destruct (IH l l') as (L1 & L2 & L3 & L4); auto. { intros. apply B2. apply no_l; auto. }
    destruct (IH r r') as (R1 & R2 & R3 & R4); auto. { intros. apply B2. apply no_r; auto. }
    split; [reflexivity|]. split; [|split].
    + apply bt_node; auto. rewrite L1, R1. rewrite <- B3. auto.
    + intros w' c' p H Hp. inversion H; subst; eauto.
    + intros w' c' H. inversion H; subst; eauto.
  - intros Q. injection Q as <-. split; [reflexivity|]. split; [apply bt_leaf|]. split.
    + intros w c p H Hp. inversion H; subst; auto.
    + intros w c H. inversion H; subst. apply andb_false_iff in E as [E|E]; auto. left. apply negb_false_iff in E. auto.
Qed.
End Sivia.
Lemma tree_cover n p : bintree n -> inb p (pn_box n) -> exists v b, leafof v b n /\ inb p b.
Proof.
  induction 1 as [v b|v b l r Sp Hl IHl Hr IHr]; cbn; intros Hp; [exists v, b; split; auto; apply lo_leaf|].
  apply (split_cover _ _ _ _ Sp) in Hp as [Hp|Hp]; [destruct (IHl Hp) as (w & c & A & B)|destruct (IHr Hp) as (w & c & A & B)];
    exists w, c; split; auto; [apply lo_l|apply lo_r]; auto.
Qed.

(** A paving computed from one box: every point of the box is in a leaf, the value of the leaf encloses
    its status, and the leaves that are not decided are small. *)
Theorem C75 : forall test bigger bis st fuel b n, bis_split bigger bis -> test_ok test st ->
  tp_of_test test opInter bigger bis fuel b = Some n ->
  pn_box n = b /\ bintree n /\ nsound st n /\
  (forall v c, leafof v c n -> is_singleton v = true \/ bigger c = false) /\
  (forall p, inb p b -> exists v c, leafof v c n /\ inb p c /\ sem v (st p)).
Proof.
  intros test bigger bis st fuel b n Hb Ht E.
  destruct (sivia_node test opInter bigger bis (fun v c => v = TMaybe) st Hb) with (fuel := fuel) (n := PnLeaf TMaybe b) (n' := n) as (A1 & A2 & A3 & A4); auto.
  - intros v c p -> Hp. specialize (Ht c p Hp). replace (opInter TMaybe (test c)) with (test c); auto. destruct (test c); reflexivity.
  - apply bt_leaf.
  - intros v c H. inversion H; subst; auto.
  - cbn in A1. refine (conj A1 (conj A2 (conj A3 (conj A4 _)))). intros p Hp. rewrite <- A1 in Hp.
    destruct (tree_cover n p A2 Hp) as (v & c & Hl & Hc). exists v, c. split; auto. split; auto. eapply A3; eauto. apply leaf_node; auto.
Qed.
(** A paving refined by another test, with an operator that is right on statuses. *)
Theorem C75_refine : forall test op bigger bis st1 st2 st (rel : stat -> stat -> stat -> Prop) fuel n n',
  bis_split bigger bis -> test_ok test st2 -> bintree n -> nsound st1 n ->
  (forall v w s t r, sem v s -> sem w t -> rel s t r -> sem (op v w) r) -> (forall p, rel (st1 p) (st2 p) (st p)) ->
  sivia test op bigger bis fuel n = Some n' ->
  pn_box n' = pn_box n /\ bintree n' /\ nsound st n' /\
  (forall v c, leafof v c n' -> is_singleton v = true \/ bigger c = false) /\
  (forall p, inb p (pn_box n) -> exists v c, leafof v c n' /\ inb p c /\ sem v (st p)).
Proof.
  intros test op bigger bis st1 st2 st rel fuel n n' Hb Ht Bt Sn Hop Hrel E.
  destruct (sivia_node test op bigger bis (fun v c => forall p, inb p c -> sem v (st1 p)) st Hb) with (fuel := fuel) (n := n) (n' := n') as (A1 & A2 & A3 & A4); auto.
  - intros v b p Hv Hp. apply (Hop _ _ (st1 p) (st2 p)); [apply Hv; exact Hp|apply Ht; exact Hp|apply Hrel].
  - intros v b H p Hp. eapply Sn; eauto.
  - refine (conj A1 (conj A2 (conj A3 (conj A4 _)))). intros p Hp. rewrite <- A1 in Hp.
    destruct (tree_cover n' p A2 Hp) as (v & c & Hl & Hc). exists v, c. split; auto. split; auto. eapply A3; eauto. apply leaf_node; auto.
Qed.
(** Instances: the same thick set seen by another test; the union or the intersection with another one. *)
Theorem C75_same : forall test bigger bis st fuel n n', bis_split bigger bis -> test_ok test st -> bintree n -> nsound st n ->
  sivia test opInter bigger bis fuel n = Some n' -> nsound st n'.
Proof.
  intros test bigger bis st fuel n n' Hb Ht Bt Sn E.
  apply (C75_refine test opInter bigger bis st st st (fun s t r => s = r /\ t = r) fuel n n'); auto.
  intros v w s t r A B [-> ->]. apply C74_inter; auto.
Qed.
Theorem C75_union : forall test bigger bis st1 st2 st fuel n n', bis_split bigger bis -> test_ok test st2 -> bintree n -> nsound st1 n ->
  (forall p, status2 orb (st1 p) (st2 p) (st p)) -> sivia test opOr bigger bis fuel n = Some n' -> nsound st n'.
Proof.
  intros test bigger bis st1 st2 st fuel n n' Hb Ht Bt Sn Hs E.
  apply (C75_refine test opOr bigger bis st1 st2 st (status2 orb) fuel n n'); auto. apply C74_or.
Qed.
Theorem C75_intersection : forall test bigger bis st1 st2 st fuel n n', bis_split bigger bis -> test_ok test st2 -> bintree n -> nsound st1 n ->
  (forall p, status2 andb (st1 p) (st2 p) (st p)) -> sivia test opAnd bigger bis fuel n = Some n' -> nsound st n'.
Proof.
  intros test bigger bis st1 st2 st fuel n n' Hb Ht Bt Sn Hs E.
  apply (C75_refine test opAnd bigger bis st1 st2 st (status2 andb) fuel n n'); auto. apply C74_and.
Qed.
(** The constructor gives the box the value MAYBE, which is the neutral value of the intersection only:
    with the union of thick sets, a paving built from a test of an empty set is not sound. *)
Theorem C75_constructor_or_refuted : exists test bigger bis st fuel b n p, bis_split bigger bis /\ test_ok test st /\
  tp_of_test test opOr bigger bis fuel b = Some n /\ inb p b /\ ~ exists v c, leafof v c n /\ inb p c /\ sem v (st p).
Proof.
  exists (fun _ => TOut), (fun _ => false), (fun b => (b, b)), (fun _ => sOut), 1%nat, [I2 0 1], (PnLeaf TMaybe [I2 0 1]), [0].
  refine (conj _ (conj _ (conj eq_refl (conj _ _)))).
  - intros b H. discriminate.
  - intros b p _. reflexivity.
  - constructor; [unfold I2; cbn; lra|constructor].
  - intros (v & c & H & _ & Q). inversion H; subst. discriminate Q.
Qed.

(** ** C77: reunite, change, save and load *)
(** no two brother leaves with the same value *)
Inductive reduced : pn -> Prop :=
| rd_leaf v b : reduced (PnLeaf v b)
| rd_node v b l r : reduced l -> reduced r ->
    (forall w c c', l = PnLeaf w c -> r = PnLeaf w c' -> False) -> reduced (PnNode v b l r).
Lemma teqb_true v w : teqb v w = true <-> v = w.
Proof. destruct v, w; cbn; split; congruence. Qed.
Lemma reunite_node w c l r : exists v, fst (reunite (PnNode w c l r)) = PnNode v c (fst (reunite l)) (fst (reunite r)) /\
    v = opUnion (pn_val (fst (reunite l))) (pn_val (fst (reunite r))) /\
    snd (reunite (PnNode w c l r)) = snd (reunite l) || snd (reunite r) /\
    (forall v c c', fst (reunite l) = PnLeaf v c -> fst (reunite r) = PnLeaf v c' -> False)
  \/ exists c1 c2, fst (reunite l) = PnLeaf v c1 /\ fst (reunite r) = PnLeaf v c2 /\ fst (reunite (PnNode w c l r)) = PnLeaf v c /\
    snd (reunite (PnNode w c l r)) = true.
Proof.
  cbn [reunite]. destruct (reunite l) as [l' bl], (reunite r) as [r' br]. cbn [fst snd].
  destruct l' as [vl c1|vl c1 l1 l2]; [destruct r' as [vr c2|vr c2 r1 r2]|].
  - destruct (teqb vl vr) eqn:E.
    + apply teqb_true in E as ->. exists vr. right. exists c1, c2. auto.
    + eexists. left. cbn. repeat split; eauto. intros v d d' A B. injection A as -> ->. injection B as -> ->.
      destruct v; discriminate.
  - eexists. left. cbn. repeat split; eauto. discriminate.
  - eexists. left. cbn. repeat split; eauto. discriminate.
Qed.
Lemma reunite_box n : pn_box (fst (reunite n)) = pn_box n.
Proof. destruct n as [v b|w c l r]; auto. destruct (reunite_node w c l r) as (v & [(-> & _)|(c1 & c2 & _ & _ & -> & _)]); reflexivity. Qed.
Lemma reunite_tree n : bintree n -> bintree (fst (reunite n)).
Proof.
  induction 1 as [v b|w c l r Sp Hl IHl Hr IHr]; [apply bt_leaf|].
  destruct (reunite_node w c l r) as (v & [(-> & _)|(c1 & c2 & _ & _ & -> & _)]); [|apply bt_leaf].
  apply bt_node; auto. rewrite !reunite_box. auto.
Qed.
(** [reunite] changes no value of any point: *)
Theorem C77_reunite : forall n, bintree n -> forall p v,
  (exists b, leafof v b n /\ inb p b) <-> (exists b, leafof v b (fst (reunite n)) /\ inb p b).
Proof.
  induction 1 as [w c|w c l r Sp Hl IHl Hr IHr]; intros p v; [reflexivity|].
  assert (E : (exists b, leafof v b (PnNode w c l r) /\ inb p b) <->
              (exists b, leafof v b (fst (reunite l)) /\ inb p b) \/ (exists b, leafof v b (fst (reunite r)) /\ inb p b)).
  { rewrite <- IHl, <- IHr. split.
    - intros (b & H & Hp). inversion H; subst; eauto.
    - intros [(b & H & Hp)|(b & H & Hp)]; exists b; split; auto; [apply lo_l|apply lo_r]; auto. }
  rewrite E. clear E IHl IHr. pose proof (reunite_box l) as Bl. pose proof (reunite_box r) as Br.
  destruct (reunite_node w c l r) as (v' & [(-> & _)|(c1 & c2 & E1 & E2 & -> & _)]).
  - split.
    + intros [(b & H & Hp)|(b & H & Hp)]; exists b; split; auto; [apply lo_l|apply lo_r]; auto.
    + intros (b & H & Hp). inversion H; subst; eauto.
  - rewrite E1, E2 in *. cbn in Bl, Br. subst c1 c2. split.
    + intros [(b & H & Hp)|(b & H & Hp)]; inversion H; subst; exists c; (split; [apply lo_leaf|]); apply (split_sub _ _ _ _ Sp); auto.
    + intros (b & H & Hp). inversion H; subst. apply (split_cover _ _ _ _ Sp) in Hp as [Hp|Hp]; [left|right]; eexists; (split; [apply lo_leaf|auto]).
Qed.
(** the result has no brothers left to merge, and each node encloses the values of its leaves; *)
Theorem C77_reduced : forall n, reduced (fst (reunite n)).
Proof.
  induction n as [v b|w c l IHl r IHr]; [apply rd_leaf|].
  destruct (reunite_node w c l r) as (v & [(-> & _ & _ & K)|(c1 & c2 & _ & _ & -> & _)]); [|apply rd_leaf]. apply rd_node; auto.
Qed.
Theorem C77_values : forall n v b s, leafof v b (fst (reunite n)) -> sem v s -> sem (pn_val (fst (reunite n))) s.
Proof.
  induction n as [v b|w c l IHl r IHr]; intros v' b' s H Hs; [inversion H; subst; auto|].
  destruct (reunite_node w c l r) as (v & [(E & Ev & _)|(c1 & c2 & _ & _ & E & _)]); rewrite E in *; cbn.
  - subst v. apply C74_union. inversion H; subst; [left|right]; eauto.
  - inversion H; subst; auto.
Qed.
Lemma leaves_le n : (pn_leaves (fst (reunite n)) <= pn_leaves n)%nat /\ (snd (reunite n) = true <-> (pn_leaves (fst (reunite n)) < pn_leaves n)%nat).
Proof.
  induction n as [v b|w c l [Al Bl] r [Ar Br]]; [cbn; split; auto; split; [discriminate|lia]|].
  destruct (reunite_node w c l r) as (v & [(E & _ & F & _)|(c1 & c2 & E1 & E2 & E & F)]).
  - rewrite E, F. cbn. split; [lia|]. rewrite orb_true_iff, Bl, Br. lia.
  - rewrite E, F. rewrite E1 in Al. rewrite E2 in Ar. cbn in *. split; [lia|]. split; auto. lia.
Qed.
(** the returned boolean says whether something was merged. *)
Theorem C77_flag : forall n, snd (reunite n) = true <-> (pn_leaves (fst (reunite n)) < pn_leaves n)%nat.
Proof. intros n. apply leaves_le. Qed.
(** [change] applies the operator to every point. *)
Lemma map_box op n : pn_box (map_leaves op n) = pn_box n.
Proof. destruct n; reflexivity. Qed.
Lemma map_tree op n : bintree n -> bintree (map_leaves op n).
Proof. induction 1; cbn; [apply bt_leaf|apply bt_node; auto]. rewrite !map_box. auto. Qed.
Lemma map_leafof op n v b : leafof v b (map_leaves op n) <-> exists w, leafof w b n /\ v = op w.
Proof.
  induction n as [w c|w c l IHl r IHr]; cbn; split.
  - intros H. inversion H; subst. exists w. split; auto. apply lo_leaf.
  - intros (u & H & ->). inversion H; subst. apply lo_leaf.
  - intros H. inversion H; subst; [apply IHl in H1 as (u & A & B)|apply IHr in H1 as (u & A & B)]; exists u; split; auto; [apply lo_l|apply lo_r]; auto.
  - intros (u & H & ->). inversion H; subst; [apply lo_l, IHl|apply lo_r, IHr]; eauto.
Qed.
Theorem C77_change : forall op n, bintree n -> forall p v,
  (exists b, leafof v b (tp_change op n) /\ inb p b) <-> (exists w b, leafof w b n /\ inb p b /\ v = op w).
Proof.
  intros op n H p v. unfold tp_change. rewrite <- C77_reunite by (apply map_tree; auto). split.
  - intros (b & Hl & Hp). apply map_leafof in Hl as (w & A & B). eauto.
  - intros (w & b & Hl & Hp & E). exists b. split; auto. apply map_leafof. eauto.
Qed.
Theorem C77_complement : forall st n, bintree n -> sound st n ->
  sound (fun p => match st p with sOut => sIn | sIn => sOut | sPen => sPen end) (tp_change opNot n).
Proof.
  intros st n Bt Hs v b p Hl Hp. destruct (proj1 (C77_change opNot n Bt p v)) as (w & c & A & B & ->); [eauto|].
  specialize (Hs w c p A B). destruct w, (st p); cbn in *; try congruence; try tauto; intuition congruence.
Qed.

(** A paving saved in a file and loaded again: *)
(** what the file gives back: each box becomes a point, the first bound in each dimension *)
Definition first_bound (b : box) : itv := match b with Itv (Some l) _ :: _ => pt l | _ => Emp end.
Inductive same_values : pn -> pn -> Prop :=
| sv_leaf v b c : length b = length c -> same_values (PnLeaf v b) (PnLeaf v c)
| sv_node v b c l r l' r' : length b = length c -> same_values l l' -> same_values r r' -> same_values (PnNode v b l r) (PnNode v c l' r').
Lemma read_ok b f : read_bounds (2 * length b) (flat_map bounds_of b ++ f) =
  Some (flat_map (fun i => match i with Itv l h => [l; h] | Emp => [None; None] end) b, f).
Proof.
  induction b as [|i b IH]; [reflexivity|].
  replace (2 * length (i :: b))%nat with (S (S (2 * length b))) by (cbn; lia).
  destruct i as [|l h]; cbn [flat_map bounds_of app read_bounds]; rewrite IH; reflexivity.
Qed.
Inductive dims : pn -> Prop :=
| dm_leaf v b : b <> [] -> dims (PnLeaf v b)
| dm_node v b l r : b <> [] -> dims l -> dims r -> dims (PnNode v b l r).
Fixpoint degraded (n : pn) : pn :=
  match n with
  | PnLeaf v b => PnLeaf v (repeat (first_bound b) (length b))
  | PnNode v b l r => PnNode v (repeat (first_bound b) (length b)) (degraded l) (degraded r)
  end.
Lemma load_save n : dims n -> forall fuel f, (pn_height n <= fuel)%nat -> pn_load fuel (pn_save n ++ f) = Some (degraded n, f).
Proof.
  induction 1 as [v b Hb|v b l r Hb Hl IHl Hr IHr]; intros fuel f Hf; (destruct fuel as [|k]; [cbn in Hf; lia|]);
    cbn [pn_save app pn_load].
  - rewrite <- app_assoc, read_ok. destruct b as [|[|l h] b]; [congruence| |]; cbn [flat_map app degraded first_bound]; reflexivity.
  - rewrite <- app_assoc, read_ok. cbn in Hf.
    assert (El : pn_load k ((pn_save l ++ pn_save r) ++ f) = Some (degraded l, pn_save r ++ f)) by (rewrite <- app_assoc; apply IHl; lia).
    assert (Er : pn_load k (pn_save r ++ f) = Some (degraded r, f)) by (apply IHr; lia).
    destruct b as [|[|i h] b]; [congruence| |]; cbn [flat_map app degraded first_bound]; rewrite El, Er; reflexivity.
Qed.
(** the shape of the tree, the values and the dimension of the boxes come back, and nothing else of the
    file is read; *)
Theorem C77_load_partial : forall n fuel f, dims n -> (pn_height n <= fuel)%nat ->
  exists n', pn_load fuel (pn_save n ++ f) = Some (n', f) /\ same_values n n'.
Proof.
  intros n fuel f H Hf. exists (degraded n). split; [apply load_save; auto|].
  clear. induction n; cbn; constructor; auto; rewrite repeat_length; auto.
Qed.
(** but the boxes do not. *)
Theorem C77_load_refuted : exists n n', bintree n /\ dims n /\ pn_load 10 (pn_save n) = Some (n', []) /\ n' <> n /\
  forall p, inb p (pn_box n') -> p = [0; 0].
Proof.
  exists (PnLeaf TIn [I2 0 1; I2 2 3]), (PnLeaf TIn [pt 0; pt 0]).
  refine (conj (bt_leaf _ _) (conj (dm_leaf _ _ _) (conj eq_refl (conj _ _)))); [discriminate| |].
  - intros E. injection E as E. lra.
  - intros p H. inversion H as [|a ? ps ? A Hp]; subst. inversion Hp as [|a' ? ps' ? A' Hp']; subst. inversion Hp'; subst.
    apply In_pt in A, A'. congruence.
Qed.

(** ** Concrete cases *)
(** the disk of the points below 1: in; between 1 and 2: penumbra; above 2: out *)
Definition ex_st (p : list R) : stat :=
  match p with [a] => if Rltb a 1 then sIn else if Rltb 2 a then sOut else sPen | _ => sPen end.
Definition ex_test (b : box) : tb :=
  match b with
  | [Itv (Some l) (Some h)] => if Rltb h 1 then TIn else if Rltb 2 l then TOut else TUnk
  | _ => TUnk
  end.
Definition ex_bigger (b : box) : bool := match b with [Itv (Some l) (Some h)] => Rltb 2 (h - l) | _ => false end.
Definition ex_bis (b : box) : box * box :=
  match b with
  | [Itv (Some l) (Some h)] => ([I2 l ((l + h) / 2)], [I2 ((l + h) / 2) h])
  | _ => (b, b)
  end.
Lemma ex_test_ok : test_ok ex_test ex_st.
Proof.
  intros b p H. destruct H as [|a i ps b A H]; [exact I|]. destruct i as [|[l|] [h|]]; try exact I; destruct H; try exact I.
  unfold ex_test, ex_st, Rltb in *. cbn in A. destruct (Rlt_dec h 1); [destruct (Rlt_dec a 1); [reflexivity|lra]|].
  destruct (Rlt_dec 2 l); [|exact I]. destruct (Rlt_dec a 1); [lra|]. destruct (Rlt_dec 2 a); [reflexivity|lra].
Qed.
Lemma ex_bis_ok : bis_split ex_bigger ex_bis.
Proof.
  intros b H. destruct b as [|[|[l|] [h|]] [|? ?]]; try discriminate. unfold ex_bigger in H. apply Rltb_true in H. cbn.
  apply sp_here with (m := (l + h) / 2); intros w; unfold I2; cbn; lra.
Qed.
Definition ex_tree : pn :=
  PnNode TUnk [I2 0 5]
    (PnNode TUnk [I2 0 (5 / 2)] (PnLeaf TUnk [I2 0 (5 / 4)]) (PnLeaf TUnk [I2 (5 / 4) (5 / 2)]))
    (PnLeaf TOut [I2 (5 / 2) 5]).
Lemma ex_bis_eq l h m : (l + h) / 2 = m -> ex_bis [I2 l h] = ([I2 l m], [I2 m h]).
Proof. intros <-. reflexivity. Qed.
Example C75_ex : tp_of_test ex_test opInter ex_bigger ex_bis 5 [I2 0 5] = Some ex_tree.
Proof.
  assert (T1 : ex_test [I2 0 5] = TUnk) by (unfold ex_test, I2; rdec; reflexivity).
  assert (T2 : ex_test [I2 0 (5 / 2)] = TUnk) by (unfold ex_test, I2; rdec; reflexivity).
  assert (T3 : ex_test [I2 (5 / 2) 5] = TOut) by (unfold ex_test, I2; rdec; reflexivity).
  assert (T4 : ex_test [I2 0 (5 / 4)] = TUnk) by (unfold ex_test, I2; rdec; reflexivity).
  assert (T5 : ex_test [I2 (5 / 4) (5 / 2)] = TUnk) by (unfold ex_test, I2; rdec; reflexivity).
  assert (G1 : ex_bigger [I2 0 5] = true) by (unfold ex_bigger, I2; rdec; reflexivity).
  assert (G2 : ex_bigger [I2 0 (5 / 2)] = true) by (unfold ex_bigger, I2; rdec; reflexivity).
  assert (G3 : ex_bigger [I2 (5 / 2) 5] = true) by (unfold ex_bigger, I2; rdec; reflexivity).
  assert (G4 : ex_bigger [I2 0 (5 / 4)] = false) by (unfold ex_bigger, I2; rdec; reflexivity).
  assert (G5 : ex_bigger [I2 (5 / 4) (5 / 2)] = false) by (unfold ex_bigger, I2; rdec; reflexivity).
  unfold tp_of_test, ex_tree. cbn [sivia pn_box pn_val pn_bisect]. rewrite T1, G1. cbn [sivia opInter tlook tcode teqb is_singleton negb andb].
  cbn -[ex_test ex_bigger ex_bis I2]. rewrite (ex_bis_eq 0 5 (5 / 2)) by lra. cbn -[ex_test ex_bigger ex_bis I2].
  rewrite T2, G2, T3, G3. cbn -[ex_test ex_bigger ex_bis I2]. rewrite (ex_bis_eq 0 (5 / 2) (5 / 4)) by lra. cbn -[ex_test ex_bigger ex_bis I2].
  rewrite T4, G4, T5, G5. reflexivity.
Qed.
(** hence this paving is made by bisections and is sound *)
Example C75_ex_sound : bintree ex_tree /\ sound ex_st ex_tree.
Proof.
  destruct (C75 ex_test ex_bigger ex_bis ex_st 5 [I2 0 5] ex_tree ex_bis_ok ex_test_ok C75_ex) as (_ & A & B & _).
  split; auto. intros v b p Hl. apply B. apply leaf_node. auto.
Qed.
(** the box [1,4] keeps the point 3/2 of the penumbra, and loses the part over 5/2 *)
Example C76_ex : exists y, tp_ctc TOut 6 ex_tree [I2 1 4] = Some y /\ inb [3 / 2] y.
Proof.
  apply (C76_outside_partial ex_st); try apply C75_ex_sound; auto.
  - constructor; [unfold I2; cbn; lra|constructor].
  - unfold b_is_flat, I2. cbn. rdec. reflexivity.
  - constructor; [unfold I2; cbn; lra|constructor].
  - unfold ex_st. rdec. discriminate.
Qed.
Example C76_ex_contracts : forall y, tp_ctc TOut 6 ex_tree [I2 1 4] = Some y -> forall p, inb p y -> inb p [I2 0 (5 / 2)].
Proof.
  intros y H. apply (C76_contracts TOut ex_tree 6 [I2 1 4] y [I2 0 (5 / 2)]); try apply C75_ex_sound; auto.
  - constructor; [unfold I2; cbn; lra|constructor].
  - intros v b Hl. inversion Hl as [|? ? ? ? A|? ? ? ? A]; subst; inversion A as [|? ? ? ? B|? ? ? ? B]; subst; try inversion B; subst; (constructor; [unfold I2; cbn; lra|constructor]).
  - constructor; [unfold I2; cbn; lra|constructor].
  - unfold b_is_subset, I2. cbn. rdec. reflexivity.
  - intros v b Hl Hv _. inversion Hl as [|? ? ? ? A|? ? ? ? A]; subst; inversion A as [|? ? ? ? B|? ? ? ? B]; subst; try inversion B; subst; try congruence;
      (constructor; [|constructor]; intros w; unfold I2; cbn; lra).
Qed.
Example C76_ex_contains : exists v, tp_contains 6 ex_tree [I2 3 7] = Some v /\ sem v (ex_st [4]).
Proof.
  apply C76_contains_partial; try apply C75_ex_sound.
  - cbn. lia.
  - constructor; [|constructor]. exists 3, 4. unfold I2. cbn. lra.
  - constructor; [unfold I2; cbn; lra|constructor].
  - constructor; [unfold I2; cbn; lra|constructor].
Qed.
(** the two brothers of value UNKNOWN are merged *)
Example C77_ex : reunite ex_tree = (PnNode TUnk [I2 0 5] (PnLeaf TUnk [I2 0 (5 / 2)]) (PnLeaf TOut [I2 (5 / 2) 5]), true).
Proof. reflexivity. Qed.
Example C77_ex_dims : dims ex_tree.
Proof. repeat constructor; discriminate. Qed.

Print Assumptions C75.
Print Assumptions C75_refine.
Print Assumptions C76_contracts.
Print Assumptions C76_contains_partial.
Print Assumptions C77_change.
Print Assumptions C77_load_partial.
