(** * The pavings of SepPaving: separate and Sivia_ops (C92, C93) *)

From Coq Require Import Reals Lra Lia Bool List Arith Classical_Prop.
Import ListNotations.
From Verif Require Import Itv PropsDyn2 Tube TubeFacts Static PropsStatic Sivia PropsSivia PropsSiviaTerm Concrete PropsSiviaEx
  Paving PropsPaving3 Separators PropsSep PropsSep2 SepProj PropsSepProj PropsSepProj2 PSet PropsPSet.
Open Scope R_scope.

(** ** Specification *)
(** [xi'], [xo'] are given by a separator of [S] from [xi], [xo] *)
Definition separates (S : list R -> Prop) (xi xo xi' xo' : box) : Prop :=
  (forall p, inb p xi' -> inb p xi) /\ (forall p, inb p xo' -> inb p xo) /\
  (forall p, inb p xi -> ~ S p -> inb p xi') /\ (forall p, inb p xo -> S p -> inb p xo').
(** What is expected of IntervalVector::diff and mid(), when [x] is not flat in a direction where [x0] is not: each box is on
    one side of [x], and its middle strictly *)
Definition pdiff_side (N : nat) (diff : box -> box -> list box) (mid : box -> list R) : Prop := forall x0 x d, good N x0 -> good N x -> (forall p, inb p x -> inb p x0) ->
  b_is_empty x = false -> flat x0 x = false -> List.In d (diff x0 x) -> exists k c, (k < N)%nat /\
  (((forall q, inb q d -> nth k q 0 <= c) /\ (forall q, inb q x -> c <= nth k q 0) /\ nth k (mid d) 0 < c) \/
   ((forall q, inb q d -> c <= nth k q 0) /\ (forall q, inb q x -> nth k q 0 <= c) /\ c < nth k (mid d) 0)).

(** ** The loop that gives xborder *)
(** [p] is in the boxes in and out of the nodes from the root to a leaf *)
Fixpoint on_path (n : psn) (p : list R) : Prop :=
  match n with
  | PLeaf a b => inb p a /\ inb p b
  | PNode a b l r => (inb p a /\ inb p b) /\ (on_path l p \/ on_path r p)
  end.
Fixpoint boxes (N : nat) (n : psn) : Prop :=
  match n with
  | PLeaf a b => good N a /\ good N b
  | PNode a b l r => good N a /\ good N b /\ boxes N l /\ boxes N r
  end.
Lemma on_path_in n p : on_path n p -> inb p (ps_in n) /\ inb p (ps_out n).
Proof. destruct n; cbn; tauto. Qed.
Lemma boxes_in N n : boxes N n -> good N (ps_in n) /\ good N (ps_out n).
Proof. destruct n; cbn; tauto. Qed.
Lemma size_pos n : (0 < ps_size n)%nat. Proof. destruct n; cbn; lia. Qed.
Definition total (q : list psn) : nat := list_sum (map ps_size q).
Lemma total_app a b : total (a ++ b) = (total a + total b)%nat.
Proof. unfold total. rewrite map_app, list_sum_app. auto. Qed.
Lemma border_ok N x : good N x -> forall fuel border q, good N border -> (forall p, inb p border -> inb p x) -> Forall (boxes N) q -> (total q <= fuel)%nat ->
  good N (ps_border x fuel border q) /\ (forall p, inb p (ps_border x fuel border q) -> inb p x) /\
  (forall p, inb p x -> inb p border \/ (exists n, List.In n q /\ on_path n p) -> inb p (ps_border x fuel border q)).
Proof.
  intros Gx. induction fuel as [|fuel IH]; intros border q Gb Sb F L.
  - destruct q as [|n q]; [|unfold total in L; cbn in L; assert (K := size_pos n); lia]. cbn. refine (conj Gb (conj Sb _)). intros p _ [H|(n & [] & _)]; auto.
  - destruct q as [|n q]; [cbn; refine (conj Gb (conj Sb _)); intros p _ [H|(n & [] & _)]; auto|].
    inversion F as [|? ? Fn F']; subst. change (total (n :: q)) with (ps_size n + total q)%nat in L. cbn [ps_border].
    destruct n as [a b|a b l r]; cbn [ps_turn].
    + destruct Fn as (Ga & Gb'). assert (GY : good N (b_inter x (b_inter a b))) by auto using good_inter.
      destruct (IH (b_hull border (b_inter x (b_inter a b))) q) as (A & B & C); auto using good_hull; [|cbn in L; lia|].
      { apply (hull_incl N); auto; [apply Gx|]. intros p Hp. apply (inter_pts N) in Hp; auto using good_inter. tauto. }
      refine (conj A (conj B _)). intros p Hx H. apply C; auto. destruct H as [H|(n & [<-|Hn] & H)].
      * left. apply (hull_pts N); auto.
      * left. apply (hull_pts N); auto. right. destruct H. apply (inter_pts N); auto using good_inter. split; auto. apply (inter_pts N); auto.
      * right. eauto.
    + destruct Fn as (Ga & Gb' & Gl & Gr). cbn [ps_size] in L. cbv zeta.
      set (keep := fun m => negb (b_is_empty (b_inter (b_inter (ps_in m) (ps_out m)) x)) && negb (b_is_subset (b_inter (b_inter (ps_in m) (ps_out m)) x) border)).
      change (if _ && _ then [l] else []) with (if keep l then [l] else []). change (if _ && _ then [r] else []) with (if keep r then [r] else []).
      assert (KP : forall m p, boxes N m -> keep m = false -> inb p x -> on_path m p -> inb p border).
      { intros m p Gm K Hx H. destruct (boxes_in N m Gm) as (G1 & G2). destruct (on_path_in m p H) as (H1 & H2). assert (GY : good N (b_inter (b_inter (ps_in m) (ps_out m)) x)) by auto using good_inter.
        assert (HY : inb p (b_inter (b_inter (ps_in m) (ps_out m)) x)) by (apply (inter_pts N); auto using good_inter; split; auto; apply (inter_pts N); auto).
        unfold keep in K. apply andb_false_iff in K. destruct K as [K|K]; apply negb_false_iff in K; [destruct (empty_pts _ K p HY)|].
        revert HY. apply subset_in; auto. destruct GY, Gb; congruence. }
      destruct (IH border (q ++ (if keep l then [l] else []) ++ (if keep r then [r] else []))) as (A & B & C); auto.
      { apply Forall_app. split; auto. apply Forall_app. destruct (keep l), (keep r); auto. }
      { rewrite !total_app. assert (T : forall m, (total (if keep m then [m] else []) <= ps_size m)%nat) by (intros m; destruct (keep m); unfold total; cbn; lia). assert (T1 := T l). assert (T2 := T r). lia. }
      refine (conj A (conj B _)). intros p Hx H. apply C; auto. destruct H as [H|(n & [<-|Hn] & H)]; auto.
      * destruct H as (_ & [H|H]).
        -- destruct (keep l) eqn:K; [right; exists l; split; auto; apply in_or_app; right; apply in_or_app; left; left; auto|left; apply (KP l); auto].
        -- destruct (keep r) eqn:K; [right; exists r; split; auto; apply in_or_app; right; apply in_or_app; right; left; auto|left; apply (KP r); auto].
      * right. exists n. split; auto. apply in_or_app. auto.
Qed.
Lemma pinv_boxes N S B C : forall n E, pinv N S B C E n -> boxes N n.
Proof.
  induction n as [a b|a b l IHl r IHr]; intros E I; assert (V := pinv_node _ _ _ _ _ _ I); destruct V as (_ & Ga & Gb & _); cbn [ps_in ps_out boxes] in *; auto.
  destruct I as (_ & El & Er & _ & Il & Ir). refine (conj Ga (conj Gb (conj _ _))); eauto.
Qed.
Lemma pinv_path N S : forall n E, pinv N S (bdry S) (C_bd S) E n -> forall p, inb p E -> bdry S p -> on_path n p.
Proof.
  induction n as [a b|a b l IHl r IHr]; intros E I p HE HB; assert (V := pinv_node _ _ _ _ _ _ I); destruct V as (_ & _ & _ & _ & _ & _ & _ & Bd); cbn [ps_in ps_out on_path] in *; auto.
  destruct I as (_ & El & Er & (_ & _ & _ & CB) & Il & Ir). split; auto. destruct (CB p HE HB); [left|right]; eauto.
Qed.
Lemma run_bd N S diff E l n : pdiff_lim N diff -> good N E -> Forall (op_ok N S) l -> Forall (op_bd N S) l -> ps_run diff l (ps_new E) = Some n -> pinv N S (bdry S) (C_bd S) E n.
Proof.
  intros HD GE F1 F2 H.
  assert (I := new_inv N S (bdry S) (C_bd S) E GE). revert H. generalize dependent (ps_new E). revert n F2. induction F1 as [|o l Ho Hl IH]; intros n F2 m I H; cbn [ps_run] in H; [injection H as <-; auto|].
  inversion F2 as [|? ? Hb F2']; subst. destruct o as [bis sep eps fuel|].
  - destruct (ps_sivia bis sep eps fuel m) as [m1|] eqn:E1; [|discriminate]. apply (IH n F2' m1); auto. destruct Ho as (HB & HS).
    apply (sivia_inv N S (bdry S) (C_bd S) bis sep eps HS Hb HB (bd_mono S) (bd_fresh N S) fuel m m1 E I E1).
  - destruct (reunite_bd N S diff HD m E I) as (m1 & E1 & I1). rewrite E1 in H. apply (IH n F2' m1); auto. revert I1. apply pinv_mono; auto. intros E0 a b El Er _ (K & _). exact K.
Qed.

(** ** separate *)
Lemma give_ok N mid root l : forall x, good N (fst x) -> good N (snd x) -> Forall (good N) l ->
  (good N (fst (ps_give mid root l x)) /\ good N (snd (ps_give mid root l x))) /\
  (forall p, inb p (fst x) -> inb p (fst (ps_give mid root l x))) /\ (forall p, inb p (snd x) -> inb p (snd (ps_give mid root l x))) /\
  (forall z, length z = N -> (forall p, inb p (fst x) -> inb p z) -> (forall d, List.In d l -> forall p, inb p d -> inb p z) -> forall p, inb p (fst (ps_give mid root l x)) -> inb p z) /\
  (forall z, length z = N -> (forall p, inb p (snd x) -> inb p z) -> (forall d, List.In d l -> forall p, inb p d -> inb p z) -> forall p, inb p (snd (ps_give mid root l x)) -> inb p z) /\
  (forall d p, List.In d l -> inb p d -> (ps_inside root (mid d) <> BYes -> inb p (fst (ps_give mid root l x))) /\
    (ps_inside root (mid d) = BYes \/ ps_inside root (mid d) = BMaybe -> inb p (snd (ps_give mid root l x)))).
Proof.
  unfold ps_give. induction l as [|d l IH]; intros x G1 G2 F; cbn [fold_left].
  - refine (conj (conj G1 G2) (conj _ (conj _ (conj _ (conj _ _))))); auto. intros d p [].
  - inversion F as [|? ? Gd F']; subst.
    set (x1 := match ps_inside root (mid d) with BYes => (fst x, b_hull (snd x) d) | BMaybe => (b_hull (fst x) d, b_hull (snd x) d) | _ => (b_hull (fst x) d, snd x) end).
    assert (X : good N (fst x1) /\ good N (snd x1) /\ (forall p, inb p (fst x) -> inb p (fst x1)) /\ (forall p, inb p (snd x) -> inb p (snd x1)) /\
      (forall z, length z = N -> (forall p, inb p (fst x) -> inb p z) -> (forall p, inb p d -> inb p z) -> forall p, inb p (fst x1) -> inb p z) /\
      (forall z, length z = N -> (forall p, inb p (snd x) -> inb p z) -> (forall p, inb p d -> inb p z) -> forall p, inb p (snd x1) -> inb p z) /\
      (forall p, inb p d -> (ps_inside root (mid d) <> BYes -> inb p (fst x1)) /\ (ps_inside root (mid d) = BYes \/ ps_inside root (mid d) = BMaybe -> inb p (snd x1)))).
    { assert (H1 := fun p K => hull_pts N (fst x) d p G1 Gd K). assert (H2 := fun p K => hull_pts N (snd x) d p G2 Gd K). assert (H3 := hull_incl N (fst x) d). assert (H4 := hull_incl N (snd x) d). assert (H5 := good_hull N _ _ G1 Gd). assert (H6 := good_hull N _ _ G2 Gd).
      unfold x1. destruct (ps_inside root (mid d)); cbn [fst snd]; refine (conj _ (conj _ (conj _ (conj _ (conj _ (conj _ _)))))); auto;
      try (intros z L K1 K2; first [apply H3; auto|apply H4; auto]); intros p Hp; split; intros K; auto; try congruence; destruct K; congruence. }
    destruct X as (X1 & X2 & X3 & X4 & X5 & X6 & X7). destruct (IH x1 X1 X2 F') as (A & B & C & D & E & H). refine (conj A (conj _ (conj _ (conj _ (conj _ _))))).
    + intros p Hp. apply B, X3; auto.
    + intros p Hp. apply C, X4; auto.
    + intros z L K1 K2. apply D; auto; [|intros e He; apply K2; right; auto]. apply X5; auto. apply K2. left. auto.
    + intros z L K1 K2. apply E; auto; [|intros e He; apply K2; right; auto]. apply X6; auto. apply K2. left. auto.
    + intros e p [<-|He] Hp; [|apply H; auto]. destruct (X7 p Hp) as (Y1 & Y2). split; intros K; [apply B|apply C]; auto.
Qed.
(** from a point out of xborder to the middle of its box, no point of the boundary *)
Lemma to_mid N S x border d k c p m : good N x -> inb p x -> inb m x -> (forall q, inb q x -> bdry S q -> inb q border) -> ~ inb p border -> inb p d -> inb m d ->
  ((forall q, inb q d -> nth k q 0 <= c) /\ (forall q, inb q border -> c <= nth k q 0) /\ nth k m 0 < c) \/
  ((forall q, inb q d -> c <= nth k q 0) /\ (forall q, inb q border -> nth k q 0 <= c) /\ c < nth k m 0) -> (S p <-> S m).
Proof.
  intros Gx Hp Hm HB NP Pd Md SIDE. assert (L : length p = length m) by (rewrite (inb_len _ _ Hp), (inb_len _ _ Hm); auto).
  assert (NB : forall t, 0 <= t <= 1 -> ~ inb (lerp t p m) border).
  { intros t T H. destruct (Req_dec t 0) as [->|T0]; [rewrite lerp_0 in H; auto|].
    assert (D := lerp_box t p m d T Pd Md). assert (Q := nth_lerp p m k t L). destruct SIDE as [(S1 & S2 & S3)|(S1 & S2 & S3)]; specialize (S2 _ H); assert (S4 := S1 _ Pd); rewrite Q in S2; nra. }
  assert (NB' : forall t, 0 <= t <= 1 -> ~ inb (lerp t m p) border).
  { intros t T H. apply (NB (1 - t)); [lra|]. replace (lerp (1 - t) p m) with (lerp t m p); auto. unfold lerp. clear - L. revert m L. induction p as [|v p IH]; intros [|u m] L; try discriminate L; cbn; auto. f_equal; [lra|]. apply IH. cbn in L. lia. }
  split; intros K; apply NNPP; intros NK.
  - destruct (seg_bdry S p m L K NK) as (t & T & TB). apply (NB t T). apply HB; auto. apply lerp_box; auto.
  - destruct (seg_bdry S m p (eq_sym L) K NK) as (t & T & TB). apply (NB' t T). apply HB; auto. apply lerp_box; auto.
Qed.
Lemma no_bdry N S x p m : good N x -> inb p x -> inb m x -> (forall q, inb q x -> ~ bdry S q) -> (S p <-> S m).
Proof.
  intros Gx Hp Hm NB. assert (L : length p = length m) by (rewrite (inb_len _ _ Hp), (inb_len _ _ Hm); auto). split; intros K; apply NNPP; intros NK.
  - destruct (seg_bdry S p m L K NK) as (t & T & TB). apply (NB (lerp t p m)); auto. apply lerp_box; auto.
  - destruct (seg_bdry S m p (eq_sym L) K NK) as (t & T & TB). apply (NB (lerp t m p)); auto. apply lerp_box; auto.
Qed.
(** After any calls to Sivia and to Reunite with separators that keep the boundary of [S], a call to separate with the same
    two boxes, in the initial box, such that xborder is not flat (in a direction where the box is not), is the one of a
    separator of [S].  Missing: a flat xborder, two different boxes, a box not in the initial one, for which this is false
    ([C92_flat_refuted], [C92_pair_refuted], [C92_outside_refuted]). *)
Theorem C92_partial : forall N S diff mid E l n x, (0 < N)%nat -> pdiff_lim N diff -> pdiff_side N diff mid -> pmid N mid -> good N E -> Forall (op_ok N S) l -> Forall (op_bd N S) l ->
  ps_run diff l (ps_new E) = Some n -> good N x -> (forall p, inb p x -> inb p E) ->
  let border := ps_border x (ps_size n) (b_set_empty x) [n] in b_is_empty border = true \/ flat x border = false ->
  separates S x x (fst (ps_separate diff mid n x x)) (snd (ps_separate diff mid n x x)).
Proof.
  intros N S diff mid E l n x N0 HD HS HM GE F1 F2 HR Gx Ex border NF.
  assert (I := run_bd N S diff E l n HD GE F1 F2 HR). assert (REL := inside_ok N S _ _ n E I).
  assert (GM : good N (b_set_empty x)) by (apply good_empty; apply Gx). assert (EM : forall p, ~ inb p (b_set_empty x)) by (apply empty_pts, (set_empty_empty N); auto; apply Gx).
  assert (XX : forall p, inb p (b_hull x x) <-> inb p x). { intros p. split; [apply (hull_incl N); auto; apply Gx|intros H; apply (hull_pts N); auto]. }
  assert (G0 := good_hull N x x Gx Gx). assert (XI : forall p, inb p (b_inter x x) <-> inb p x) by (intros p; rewrite (inter_pts N) by auto; tauto).
  assert (HX : b_inter x x = x /\ b_hull x x = x).
  { destruct (b_is_empty x) eqn:Ee; [unfold b_inter, b_hull; rewrite Ee; auto|]. split; apply (same_box N); auto using good_inter. }
  destruct HX as (X1 & X2).
  destruct (border_ok N x Gx (ps_size n) (b_set_empty x) [n]) as (GB & SB & CB); auto; [intros p Hp; destruct (EM p Hp)|constructor; [eapply pinv_boxes; eauto|constructor]|unfold total; cbn; lia|].
  fold border in GB, SB, CB. assert (BD : forall p, inb p x -> bdry S p -> inb p border).
  { intros p Hp HB. apply CB; auto. right. exists n. split; [left; auto|]. apply (pinv_path N S n E I); auto. }
  unfold ps_separate. cbv zeta. rewrite X1, X2. fold border. destruct HD as (D1 & D2). destruct (D1 x border Gx GB SB) as (FD & CV). rewrite Forall_forall in FD.
  assert (FG : Forall (good N) (diff x border)) by (apply Forall_forall; intros d Hd; apply FD; auto).
  assert (GI := good_inter N x border Gx GB). destruct (give_ok N mid n (diff x border) (b_inter x border, b_inter x border) GI GI FG) as (_ & A1 & A2 & A3 & A4 & A5). cbn [fst snd] in *.
  assert (DX : forall d, List.In d (diff x border) -> forall p, inb p d -> inb p x) by (intros d Hd p Hp; eapply inb_sub; [exact Hp|apply FD; auto]).
  assert (IX : forall p, inb p (b_inter x border) -> inb p x) by (intros p Hp; apply (inter_pts N) in Hp; tauto).
  assert (LX : length x = N) by apply Gx.
  assert (SAME : forall d p, List.In d (diff x border) -> inb p d -> ~ inb p border -> inb (mid d) x /\ (S p <-> S (mid d))).
  { intros d p Hd Hp NP. assert (Md : inb (mid d) d) by (apply HM; [apply FD; auto|eapply inb_empty; eauto]). assert (Mx := DX d Hd _ Md). split; auto. destruct (b_is_empty border) eqn:EB.
    - apply (no_bdry N S x); auto; [eapply DX; eauto|]. intros q Hq HB. destruct (empty_pts _ EB q). auto.
    - destruct NF as [NF|NF]; [discriminate|]. destruct (HS x border d Gx GB SB EB NF Hd) as (k & c & _ & SIDE). apply (to_mid N S x border d k c); auto. eapply DX; eauto. }
  refine (conj (A3 x LX IX DX) (conj (A4 x LX IX DX) (conj _ _))); intros p Hp HS'.
  - destruct (classic (inb p border)) as [K|K]; [apply A1, (inter_pts N); auto|]. destruct (CV p Hp K) as (d & Hd & Pd). destruct (SAME d p Hd Pd K) as (Mx & Q).
    apply (A5 d p); auto. intros Y. destruct (REL (mid d)) as (R1 & _). specialize (R1 (Ex _ Mx)). rewrite Y in R1. apply HS', Q. auto.
  - destruct (classic (inb p border)) as [K|K]; [apply A2, (inter_pts N); auto|]. destruct (CV p Hp K) as (d & Hd & Pd). destruct (SAME d p Hd Pd K) as (Mx & Q).
    apply (A5 d p); auto. destruct (REL (mid d)) as (R1 & _). specialize (R1 (Ex _ Mx)). destruct (ps_inside n (mid d)); auto; [destruct R1; apply Q; auto|destruct R1].
Qed.

(** ** What is expected of the operations of IBEX is satisfied *)
(** the middle, strictly inside the intervals that are not bounded *)
Definition cmid2 (y : box) : list R := map (fun i => match i with Itv (Some a) (Some b) => (a + b) / 2 | Itv (Some a) None => a + 1 | Itv None (Some b) => b - 1 | _ => 0 end) y.
Lemma cmid2_pmid m : pmid m cmid2.
Proof.
  intros y (_ & W & N) E. specialize (N E). clear E. induction W as [|i y Wi W IH]; cbn; constructor.
  - destruct i as [|[a|] [b|]]; [destruct N; left; auto| | | |]; cbn in *; try lra.
  - apply IH. intros K. apply N. right. auto.
Qed.
Lemma slabs_side : forall x0 x d, Forall2 sub x x0 -> List.In d (slabs x0 x) -> exists k c, (k < length x0)%nat /\
  (((forall q, inb q d -> nth k q 0 <= c) /\ (forall q, inb q x -> c <= nth k q 0) /\ nth k (cmid2 d) 0 < c) \/
   ((forall q, inb q d -> c <= nth k q 0) /\ (forall q, inb q x -> nth k q 0 <= c) /\ c < nth k (cmid2 d) 0)).
Proof.
  intros x0 x d H. revert d. induction H as [|i i0 x x0 Hi H IH]; intros d Hd; [destruct Hd|]. cbn [slabs] in Hd. apply in_app_or in Hd. destruct Hd as [Hd|Hd].
  - apply in_map_iff in Hd. destruct Hd as (e & <- & He). destruct i0 as [|l0 h0]; [destruct He|]. destruct i as [|l h]; [destruct He|]. unfold idiff in He. apply in_app_or in He. destruct He as [He|He].
    + destruct l as [a|]; [|destruct He]. destruct (lo_leb (Some a) l0) eqn:E; [destruct He|]. destruct He as [<-|[]]. exists 0%nat, a. split; [cbn; lia|]. left. refine (conj _ (conj _ _)).
      * intros q Hq. inversion Hq as [|v ? q' ? Hv]; subst. destruct l0; cbn in *; lra.
      * intros q Hq. inversion Hq as [|v ? q' ? Hv]; subst. destruct h; cbn in *; lra.
      * destruct l0 as [b|]; cbn in *; [apply Rleb_false in E; lra|lra].
    + destruct h as [b|]; [|destruct He]. destruct (hi_leb h0 (Some b)) eqn:E; [destruct He|]. destruct He as [<-|[]]. exists 0%nat, b. split; [cbn; lia|]. right. refine (conj _ (conj _ _)).
      * intros q Hq. inversion Hq as [|v ? q' ? Hv]; subst. destruct h0; cbn in *; lra.
      * intros q Hq. inversion Hq as [|v ? q' ? Hv]; subst. destruct l; cbn in *; lra.
      * destruct h0 as [a|]; cbn in *; [apply Rleb_false in E; lra|lra].
  - apply in_map_iff in Hd. destruct Hd as (e & <- & He). destruct (IH e He) as (k & c & K & S). exists (Datatypes.S k), c. split; [cbn; lia|].
    destruct S as [(S1 & S2 & S3)|(S1 & S2 & S3)]; [left|right]; (refine (conj _ (conj _ _)); [intros q Hq; inversion Hq; subst; cbn; auto|intros q Hq; inversion Hq; subst; cbn; auto|exact S3]).
Qed.
Lemma cdiff_side N : pdiff_side N cdiff cmid2.
Proof.
  intros x0 x d (L0 & W0 & N0) (L & W & NE) P E F Hd. unfold cdiff in Hd. rewrite E, F in Hd. rewrite <- L0. apply (slabs_side x0 x); auto. apply incl_sub; auto. congruence.
Qed.

(** ** Concrete calls *)
Definition seg_ops : list ps_op := [OSivia cbis seg_sep (1 / 2) 2; OReunite].
Lemma seg_run : ps_run cdiff seg_ops (ps_new [I2 (-2) 12]) = Some seg_tree.
Proof. unfold seg_ops. cbn [ps_run]. rewrite seg_sivia, seg_reunite. reflexivity. Qed.
Lemma seg_ops_ok : Forall (op_ok 1 seg_S) seg_ops /\ Forall (op_bd 1 seg_S) seg_ops.
Proof. split; repeat apply Forall_cons; try apply Forall_nil; try exact Logic.I; apply seg_op. Qed.
Ltac bgo := unfold seg_tree; cbn [ps_size Nat.add ps_border ps_turn ps_in ps_out app]; cbv zeta; repeat (progress (pgo; cbn [ps_border ps_turn ps_in ps_out app])).
Lemma seg_border : ps_border [I2 (-2) 12] (ps_size seg_tree) (b_set_empty [I2 (-2) 12]) [seg_tree] = [I2 0 5].
Proof. bgo. reflexivity. Qed.
Lemma mid2_1 a b c : c = (a + b) / 2 -> cmid2 [I2 a b] = [c].
Proof. intros ->. reflexivity. Qed.
Lemma seg_m1 : cmid2 [I2 (-2) 0] = [-1]. Proof. apply mid2_1. lra. Qed.
Lemma seg_m2 : cmid2 [I2 5 12] = [17 / 2]. Proof. apply mid2_1. lra. Qed.
Lemma seg_m3 : cmid2 [I2 (-2) 3] = [1 / 2]. Proof. apply mid2_1. lra. Qed.
Lemma seg_m4 : cmid2 [I2 2 10] = [6]. Proof. apply mid2_1. lra. Qed.
Global Hint Rewrite seg_m1 seg_m2 seg_m3 seg_m4 : pset.
Ltac sgo := unfold ps_separate; bgo; unfold ps_give; repeat (progress (pgo; cbn [ps_inside ps_in ps_out fold_left])).
Lemma seg_separate : ps_separate cdiff cmid2 seg_tree [I2 (-2) 12] [I2 (-2) 12] = ([I2 (-2) 12], [I2 0 5]).
Proof. sgo. reflexivity. Qed.
Lemma seg_separate2 : ps_separate cdiff cmid2 seg_tree [I2 (-2) 3] [I2 (-2) 3] = ([I2 0 0], [I2 (-2) 3]).
Proof. sgo. reflexivity. Qed.
Lemma seg_separate3 : ps_separate cdiff cmid2 seg_tree [I2 6 10] [I2 2 10] = ([I2 2 10], [Emp]).
Proof. sgo. reflexivity. Qed.
(** The paving of [0,5] removes the points out of [0,5] from x_out. *)
Example C92_case : separates seg_S [I2 (-2) 12] [I2 (-2) 12] [I2 (-2) 12] [I2 0 5].
Proof.
  assert (K : separates seg_S [I2 (-2) 12] [I2 (-2) 12] (fst (ps_separate cdiff cmid2 seg_tree [I2 (-2) 12] [I2 (-2) 12])) (snd (ps_separate cdiff cmid2 seg_tree [I2 (-2) 12] [I2 (-2) 12]))).
  { apply (C92_partial 1 seg_S cdiff cmid2 [I2 (-2) 12] seg_ops); auto using cdiff_lim, cdiff_side, cmid2_pmid; try apply seg_ops_ok; try (apply good_1; lra); [exact seg_run|].
    right. rewrite seg_border. unfold flat, I2. cbn. reval. reflexivity. }
  rewrite seg_separate in K. exact K.
Qed.
(** A flat xborder: the points of [-2,0] are out of [0,5], but they are removed from x_in. *)
Theorem C92_flat_refuted : exists N S diff mid E l n x, (0 < N)%nat /\ pdiff_lim N diff /\ pdiff_side N diff mid /\ pmid N mid /\ good N E /\ Forall (op_ok N S) l /\ Forall (op_bd N S) l /\
  ps_run diff l (ps_new E) = Some n /\ good N x /\ (forall p, inb p x -> inb p E) /\
  exists p, inb p x /\ ~ S p /\ ~ inb p (fst (ps_separate diff mid n x x)).
Proof.
  exists 1%nat, seg_S, cdiff, cmid2, [I2 (-2) 12], seg_ops, seg_tree, [I2 (-2) 3].
  refine (conj _ (conj (cdiff_lim 1) (conj (cdiff_side 1) (conj (cmid2_pmid 1) (conj _ (conj (proj1 seg_ops_ok) (conj (proj2 seg_ops_ok) (conj seg_run (conj _ (conj _ _)))))))))); auto; try (apply good_1; lra).
  - intros p H. inversion H as [|v ? q ? Hv Hq]; subst. inversion Hq; subst. constructor; [cbn in *; lra|constructor].
  - exists [-1]. rewrite seg_separate2. cbn [fst]. refine (conj _ (conj _ _)); [constructor; [cbn; lra|constructor]| |]; intros H; inversion H as [|v ? q ? Hv Hq]; subst; cbn in Hv; lra.
Qed.
(** Two different boxes: the points of [2,5], that are in the set, are removed from x_out, and x_in gets larger. *)
Theorem C92_pair_refuted : exists N S diff mid E l n xi xo, (0 < N)%nat /\ pdiff_lim N diff /\ pdiff_side N diff mid /\ pmid N mid /\ good N E /\ Forall (op_ok N S) l /\ Forall (op_bd N S) l /\
  ps_run diff l (ps_new E) = Some n /\ good N xi /\ good N xo /\ (forall p, inb p xi \/ inb p xo -> inb p E) /\
  (exists p, inb p xo /\ S p /\ ~ inb p (snd (ps_separate diff mid n xi xo))) /\ (exists p, inb p (fst (ps_separate diff mid n xi xo)) /\ ~ inb p xi).
Proof.
  exists 1%nat, seg_S, cdiff, cmid2, [I2 (-2) 12], seg_ops, seg_tree, [I2 6 10], [I2 2 10].
  refine (conj _ (conj (cdiff_lim 1) (conj (cdiff_side 1) (conj (cmid2_pmid 1) (conj _ (conj (proj1 seg_ops_ok) (conj (proj2 seg_ops_ok) (conj seg_run (conj _ (conj _ (conj _ (conj _ _)))))))))))); auto; try (apply good_1; lra).
  - intros p [H|H]; inversion H as [|v ? q ? Hv Hq]; subst; inversion Hq; subst; constructor; [cbn in *; lra|constructor|cbn in *; lra|constructor].
  - exists [3]. rewrite seg_separate3. cbn [snd]. refine (conj _ (conj _ _)); [constructor; [cbn; lra|constructor]|constructor; [cbn; lra|constructor]|]. intros H; inversion H as [|v ? q ? Hv Hq]; subst; cbn in Hv; lra.
  - exists [3]. rewrite seg_separate3. cbn [fst]. split; [constructor; [cbn; lra|constructor]|]. intros H; inversion H as [|v ? q ? Hv Hq]; subst; cbn in Hv; lra.
Qed.
(** A box that is not in the initial box [1,4] of the paving: the point 2, that is in the set and in the initial box, is
    removed from x_out. *)
Definition in_tree : psn := PLeaf [Emp] [I2 1 4].
Lemma in_sep : seg_sep [I2 1 4] [I2 1 4] = ([Emp], [I2 1 4]).
Proof. unfold seg_sep, sep_abc, halfline_l, halfline_r. evf. reflexivity. Qed.
Lemma in_m : cmid2 [I2 (-6) 3] = [- (3 / 2)]. Proof. apply mid2_1. lra. Qed.
Global Hint Rewrite in_sep in_m : pset.
Lemma in_run : ps_run cdiff seg_ops (ps_new [I2 1 4]) = Some in_tree.
Proof. unfold seg_ops. cbn [ps_run ps_sivia ps_new ps_in ps_out]. pgo. reflexivity. Qed.
Lemma in_separate : ps_separate cdiff cmid2 in_tree [I2 (-6) 3] [I2 (-6) 3] = ([I2 (-6) 3], [Emp]).
Proof. unfold in_tree. sgo. reflexivity. Qed.
Theorem C92_outside_refuted : exists N S diff mid E l n x, (0 < N)%nat /\ pdiff_lim N diff /\ pdiff_side N diff mid /\ pmid N mid /\ good N E /\ Forall (op_ok N S) l /\ Forall (op_bd N S) l /\
  ps_run diff l (ps_new E) = Some n /\ good N x /\ b_is_empty (ps_border x (ps_size n) (b_set_empty x) [n]) = true /\
  exists p, inb p x /\ inb p E /\ S p /\ ~ inb p (snd (ps_separate diff mid n x x)).
Proof.
  exists 1%nat, seg_S, cdiff, cmid2, [I2 1 4], seg_ops, in_tree, [I2 (-6) 3].
  refine (conj _ (conj (cdiff_lim 1) (conj (cdiff_side 1) (conj (cmid2_pmid 1) (conj _ (conj (proj1 seg_ops_ok) (conj (proj2 seg_ops_ok) (conj in_run (conj _ (conj _ _)))))))))); auto; try (apply good_1; lra).
  exists [2]. rewrite in_separate. cbn [snd]. refine (conj _ (conj _ (conj _ _))); [constructor; [cbn; lra|constructor]|constructor; [cbn; lra|constructor]|constructor; [cbn; lra|constructor]|].
    intros H; inversion H as [|v ? q ? Hv Hq]; subst; cbn in Hv; lra.
Qed.

(** ** Sivia_ops *)
(** the interior of a set *)
Definition inner (S : list R -> Prop) (p : list R) : Prop := exists eps, 0 < eps /\ forall q, near eps p q -> S q.
(** all the inner nodes have boxes in and out with a common part larger than [eps] *)
Fixpoint inner_wider (eps : R) (n : psn) : Prop :=
  match n with
  | PLeaf _ _ => True
  | PNode a b l r => (b_is_empty (b_inter a b) = false /\ wider eps (b_inter a b) = true) /\ inner_wider eps l /\ inner_wider eps r
  end.

(** the nodes, up to the boundary of [S] *)
Section Ops.
  Variables (N : nat) (S T : list R -> Prop) (sep : sep_t) (bis : box -> option (box * box)) (eps : R) (intersection : bool).
  Hypothesis N0 : (0 < N)%nat.
  Hypothesis HT : psep N T sep.
  Hypothesis HB : pbis N bis.
  Definition thick (E a b : box) : Prop := good N E /\ good N a /\ good N b /\
    (forall p, inb p a -> inb p E) /\ (forall p, inb p b -> inb p E) /\
    (forall p, inb p E -> ~ limit S p -> inb p a) /\ (forall p, inb p E -> inner S p -> inb p b).
  Fixpoint tinv (E : box) (n : psn) : Prop :=
    match n with
    | PLeaf a b => thick E a b
    | PNode a b l r => thick E a b /\ exists El Er, tinv El l /\ tinv Er r
    end.
  Lemma tinv_node E n : tinv E n -> thick E (ps_in n) (ps_out n).
  Proof. destruct n; cbn; tauto. Qed.
  Lemma tinv_set E E' n a b : tinv E n -> thick E' a b -> tinv E' (ps_set a b n).
  Proof. destruct n as [a0 b0|a0 b0 l r]; cbn; tauto. Qed.
  Lemma inner_in p : inner S p -> S p.
  Proof. intros (e & E0 & H). apply H. apply near_refl. auto. Qed.
  Lemma limit_of (A : list R -> Prop) p : A p -> limit A p.
  Proof. intros H e He. exists p. split; auto. apply near_refl; auto. Qed.
  Lemma pinv_tinv B C : forall n E, pinv N S B C E n -> tinv E n.
  Proof.
    assert (V : forall E a b, vnode N S B E a b -> thick E a b).
    { intros E a b (GE & Ga & Gb & Sa & Sb & Ka & Kb & _). refine (conj GE (conj Ga (conj Gb (conj Sa (conj Sb (conj _ _)))))); intros p Hp K; [apply Ka; auto; intros H; apply K, limit_of; auto|apply Kb; auto; apply inner_in; auto]. }
    induction n as [a b|a b l IHl r IHr]; intros E I; cbn in *; auto. destruct I as (I & El & Er & _ & Il & Ir). split; auto. exists El, Er. auto.
  Qed.
  (** the set computed, and its approximations *)
  Definition lower (p : list R) : Prop := if intersection then inner S p /\ T p else inner S p \/ T p.
  Definition upper (p : list R) : Prop := if intersection then limit S p /\ T p else limit S p \/ T p.
  Fixpoint fineT (n : psn) : Prop :=
    ((forall p, inb p (ps_in n) -> ~ inb p (ps_out n) -> ~ lower p) /\ (forall p, inb p (ps_out n) -> ~ inb p (ps_in n) -> upper p)) /\
    match n with PLeaf _ _ => True | PNode _ _ l r => fineT l /\ fineT r end.
  Lemma fine_inside n : fineT n -> forall p, match ps_inside n p with BYes => upper p | BNo => ~ lower p | _ => True end.
  Proof.
    induction n as [a b|a b l IHl r IHr]; intros F p; cbn [ps_inside ps_in ps_out] in *.
    - destruct F as ((F1 & F2) & _). cbn [ps_in ps_out] in *. destruct (b_contains a p) eqn:A, (b_contains b p) eqn:O; rewrite ?b_contains_ok, ?b_contains_no in *; auto.
    - destruct F as ((F1 & F2) & Fl & Fr). cbn [ps_in ps_out] in *. destruct (b_contains a p) eqn:A, (b_contains b p) eqn:O; rewrite ?b_contains_ok, ?b_contains_no in *; auto.
      destruct (_ || _); [apply IHl; auto|]. destruct (_ || _); [apply IHr; auto|auto].
  Qed.
  (** the boxes of a node after the call *)
  Definition new_in (n : psn) : box := let x0 := b_hull (ps_in n) (ps_out n) in if intersection then b_hull (ps_in n) (fst (sep x0 x0)) else b_inter (ps_in n) (fst (sep x0 x0)).
  Definition new_out (n : psn) : box := let x0 := b_hull (ps_in n) (ps_out n) in if intersection then b_inter (ps_out n) (snd (sep x0 x0)) else b_hull (ps_out n) (snd (sep x0 x0)).
  Lemma step_good E n : thick E (ps_in n) (ps_out n) -> good N (new_in n) /\ good N (new_out n) /\ (forall p, inb p (new_in n) -> inb p E) /\ (forall p, inb p (new_out n) -> inb p E).
  Proof.
    intros (GE & Ga & Gb & Sa & Sb & Ka & Kb). set (x0 := b_hull (ps_in n) (ps_out n)). assert (G0 : good N x0) by (apply good_hull; auto).
    assert (E0 : forall p, inb p x0 -> inb p E) by (apply (hull_incl N); auto; apply GE). destruct (p_good N T sep HT x0 x0 G0 G0) as (G1 & G2).
    assert (U := fun p => p_sub N T sep HT x0 x0 p G0 G0). unfold new_in, new_out. cbv zeta. fold x0. assert (LE : length E = N) by apply GE. destruct intersection.
    - refine (conj (good_hull N _ _ Ga G1) (conj (good_inter N _ _ Gb G2) (conj _ _))).
      + apply (hull_incl N); auto. intros p Hp. apply E0. destruct (U p). auto.
      + intros p Hp. apply (inter_pts N) in Hp; auto. apply Sb. tauto.
    - refine (conj (good_inter N _ _ Ga G1) (conj (good_hull N _ _ Gb G2) (conj _ _))).
      + intros p Hp. apply (inter_pts N) in Hp; auto. apply Sa. tauto.
      + apply (hull_incl N); auto. intros p Hp. apply E0. destruct (U p). auto.
  Qed.
  Lemma step_fine E n : thick E (ps_in n) (ps_out n) ->
    (forall p, inb p (new_in n) -> ~ inb p (new_out n) -> ~ lower p) /\ (forall p, inb p (new_out n) -> ~ inb p (new_in n) -> upper p).
  Proof.
    intros V. destruct (step_good E n V) as (_ & _ & E1 & E2). destruct V as (GE & Ga & Gb & Sa & Sb & Ka & Kb). unfold lower, upper, new_in, new_out in *. cbv zeta in *.
    set (x0 := b_hull (ps_in n) (ps_out n)) in *. assert (G0 : good N x0) by (apply good_hull; auto).
    destruct (p_good N T sep HT x0 x0 G0 G0) as (G1 & G2). assert (K1 := fun p => p_keep_in N T sep HT x0 x0 p G0 G0). assert (K2 := fun p => p_keep_out N T sep HT x0 x0 p G0 G0).
    assert (XA : forall p, inb p (ps_in n) -> inb p x0) by (intros p H; apply (hull_pts N); auto). assert (XB : forall p, inb p (ps_out n) -> inb p x0) by (intros p H; apply (hull_pts N); auto).
    destruct intersection; split; intros p H NH.
    - intros (L1 & L2). apply NH. assert (Hb := Kb p (E1 p H) L1). apply (inter_pts N); auto.
    - assert (HE := E2 p H). apply (inter_pts N) in H; auto. destruct H as (H1 & H2). split; apply NNPP; intros K; apply NH; apply (hull_pts N); auto.
    - assert (HE := E1 p H). apply (inter_pts N) in H; auto. destruct H as (H1 & H2). intros [L|L]; apply NH; apply (hull_pts N); auto.
    - apply NNPP. intros K. apply NH. assert (HI : inb p (ps_in n)) by (apply Ka; [auto|intros L; apply K; auto]). apply (inter_pts N); auto. split; auto.
  Qed.
  (** the boxes of a child are cut, those of the right child are emptied if they are flat *)
  Lemma cut_thick E E' n m : thick E (ps_in n) (ps_out n) -> thick E' (ps_in m) (ps_out m) -> thick (b_inter E' E) (b_inter (ps_in m) (ps_in n)) (b_inter (ps_out m) (ps_out n)).
  Proof.
    intros (GE & Ga & Gb & Sa & Sb & Ka & Kb) (GE' & Ga' & Gb' & Sa' & Sb' & Ka' & Kb').
    refine (conj (good_inter N _ _ GE' GE) (conj (good_inter N _ _ Ga' Ga) (conj (good_inter N _ _ Gb' Gb) (conj _ (conj _ (conj _ _)))))); intros p; rewrite !(inter_pts N) by auto; intuition.
  Qed.
  Lemma degen_nth : forall x : box, b_is_flat x = true -> ~ List.In Emp x -> exists k v, (k < length x)%nat /\ forall q, inb q x -> nth k q 0 = v.
  Proof.
    unfold b_is_flat. induction x as [|i x IH]; intros F NE; cbn in F; [discriminate|]. apply orb_true_iff in F. destruct F as [F|F].
    - destruct i as [|[a|] [b|]]; cbn in F; try discriminate; [destruct NE; left; auto|]. apply Reqb_true in F. subst b. exists 0%nat, a. split; [cbn; lia|]. intros q Hq. inversion Hq as [|v ? q' ? Hv]; subst. cbn in *. lra.
    - destruct IH as (k & v & K & H); auto; [intros K; apply NE; right; auto|]. exists (Datatypes.S k), v. split; [cbn; lia|]. intros q Hq. inversion Hq; subst. cbn. auto.
  Qed.
  Lemma not_degen : forall (x : box) k v, good N x -> b_is_empty x = false -> b_is_flat x = false -> (k < N)%nat -> exists w, inb w x /\ nth k w 0 <> v.
  Proof.
    intros x k v G E F K. destruct (good_point N x G E) as (p & Hp). destruct G as (L & W & NE). specialize (NE E).
    assert (Wk : wf (nth k x Emp)) by (rewrite Forall_forall in W; apply W, nth_In; lia).
    assert (Fk : is_degenerated (nth k x Emp) = false).
    { destruct (is_degenerated (nth k x Emp)) eqn:D; auto. unfold b_is_flat in F. assert (Q : existsb is_degenerated x = true) by (apply existsb_exists; exists (nth k x Emp); split; auto; apply nth_In; lia). congruence. }
    assert (Hk := nth_in p x k Hp ltac:(lia)).
    assert (U : exists u, In u (nth k x Emp) /\ u <> v).
    { destruct (nth k x Emp) as [|[a|] [b|]]; cbn in *; try (exfalso; exact Hk).
      - apply Reqb_false in Fk. destruct (Req_dec v a) as [->|D]; [exists b; split; lra|exists a; split; lra].
      - destruct (Req_dec v a) as [->|D]; [exists (a + 1); split; [split; auto; lra|lra]|exists a; split; [split; auto; lra|lra]].
      - destruct (Req_dec v b) as [->|D]; [exists (b - 1); split; [split; auto; lra|lra]|exists b; split; [split; auto; lra|lra]].
      - exists (v + 1). split; [auto|lra]. }
    destruct U as (u & U1 & U2). destruct (set_coord x p k u) as (q & Q1 & Q2); auto; [lia|]. exists q. split; auto. congruence.
  Qed.
  (** an open set that meets a box in a flat box only does not meet it, when the box is not flat *)
  Lemma open_flat (O : list R -> Prop) E c d : (forall p, O p -> exists e, 0 < e /\ forall q, near e p q -> O q) -> good N d -> good N c -> b_is_empty c = false -> b_is_flat c = false ->
    (forall p, inb p c -> inb p E) -> b_is_flat d = true -> (forall p, inb p E -> O p -> inb p d) -> forall p, inb p E -> ~ O p.
  Proof.
    intros OP Gd Gc Ec Fc CE Fd OD p HE HO. assert (Hd := OD p HE HO). destruct (degen_nth d Fd) as (k & v & K & Q); [apply Gd; eapply inb_empty; eauto|].
    destruct (not_degen c k v Gc Ec Fc) as (w & W1 & W2); [destruct Gd; lia|]. destruct (OP p HO) as (e & E0 & OB). assert (L : length p = length w) by (rewrite (inb_len _ _ HE), (inb_len _ _ (CE w W1)); auto).
    destruct (lerp_near p w) as (M & M0 & NM). set (t := Rmin 1 (e / (2 * M))).
    assert (P2 : 0 < e / (2 * M)) by (apply Rdiv_lt_0_compat; lra). assert (T0 : 0 < t <= 1) by (unfold t, Rmin; destruct (Rle_dec _ _); lra). assert (T1 : t * M < e).
    { assert (t <= e / (2 * M)) by apply Rmin_r. apply Rle_lt_trans with (e / (2 * M) * M); [apply Rmult_le_compat_r; lra|]. replace (e / (2 * M) * M) with (e / 2) by (field; lra). lra. }
    assert (NR : near e p (lerp t p w)) by (rewrite <- (lerp_0 p w L) at 1; apply NM; rewrite Rabs_minus_sym, Rminus_0_r, Rabs_pos_eq by lra; auto).
    assert (Z := Q _ (OD (lerp t p w) (lerp_box t p w E ltac:(lra) HE (CE w W1)) (OB _ NR))). rewrite nth_lerp in Z by auto. rewrite (Q p Hd) in Z.
    assert (t * (nth k w 0 - v) = 0) by lra. apply Rmult_integral in H. lra.
  Qed.
  Lemma near_tri e p q r : near (e / 2) p q -> near (e / 2) q r -> near e p r.
  Proof.
    intros H. revert r. induction H as [|a b p q Hab H IH]; intros r K; inversion K as [|? c ? r' Hbc K']; subst; constructor; [|apply IH; auto].
    replace (a - c) with ((a - b) + (b - c)) by lra. eapply Rle_lt_trans; [apply Rabs_triang|]. lra.
  Qed.
  Lemma near_sym e p q : near e p q -> near e q p.
  Proof. intros H. induction H; constructor; auto. rewrite Rabs_minus_sym. auto. Qed.
  Lemma inner_open p : inner S p -> exists e, 0 < e /\ forall q, near e p q -> inner S q.
  Proof. intros (e & E0 & H). exists (e / 2). split; [lra|]. intros q Hq. exists (e / 2). split; [lra|]. intros r Hr. apply H. eapply near_tri; eauto. Qed.
  Lemma outer_open p : ~ limit S p -> exists e, 0 < e /\ forall q, near e p q -> ~ limit S q.
  Proof.
    intros H. apply NNPP. intros K. apply H. intros e E0. apply NNPP. intros Z. apply K. exists (e / 2). split; [lra|]. intros q Hq L. destruct (L (e / 2)) as (r & R1 & R2); [lra|]. apply Z. exists r. split; auto. eapply near_tri; eauto.
  Qed.
  Lemma set_empty_pts x : good N x -> forall p, ~ inb p (b_set_empty x).
  Proof. intros G. apply empty_pts, (set_empty_empty N); auto. apply G. Qed.
  Lemma clear_thick E a b : thick E a b -> exists E', thick E' (clear_flat a) (clear_flat b).
  Proof.
    intros (GE & Ga & Gb & Sa & Sb & Ka & Kb). unfold clear_flat.
    assert (NA := set_empty_pts a Ga). assert (NB := set_empty_pts b Gb). assert (NE := set_empty_pts E GE). assert (GA := good_empty N a (proj1 Ga)). assert (GB := good_empty N b (proj1 Gb)). assert (GE' := good_empty N E (proj1 GE)).
    destruct (b_is_empty a || b_is_flat a) eqn:Fa, (b_is_empty b || b_is_flat b) eqn:Fb.
    - exists (b_set_empty E). refine (conj GE' (conj GA (conj GB (conj _ (conj _ (conj _ _)))))); intros p Hp; try (destruct (NA p Hp)); try (destruct (NB p Hp)); destruct (NE p Hp).
    - apply orb_false_iff in Fb. destruct Fb as (Eb & Fb). exists E. refine (conj GE (conj GA (conj Gb (conj _ (conj Sb (conj _ Kb)))))); intros p Hp; [destruct (NA p Hp)|]. intros NL. exfalso.
      apply orb_true_iff in Fa. destruct Fa as [Fa|Fa]; [apply (empty_pts _ Fa p); auto|]. apply (open_flat (fun p => ~ limit S p) E b a) with (p := p); auto using outer_open.
    - apply orb_false_iff in Fa. destruct Fa as (Ea & Fa). exists E. refine (conj GE (conj Ga (conj GB (conj Sa (conj _ (conj Ka _)))))); intros p Hp; [destruct (NB p Hp)|]. intros NL. exfalso.
      apply orb_true_iff in Fb. destruct Fb as [Fb|Fb]; [apply (empty_pts _ Fb p); auto|]. apply (open_flat (inner S) E a b) with (p := p); auto using inner_open.
    - exists E. refine (conj GE (conj Ga (conj Gb (conj Sa (conj Sb (conj Ka Kb)))))).
  Qed.
  Lemma set_in a b n : ps_in (ps_set a b n) = a /\ ps_out (ps_set a b n) = b. Proof. destruct n; auto. Qed.
  Lemma new_tinv x : good N x -> tinv x (ps_new x).
  Proof. intros G. refine (conj G (conj G (conj G (conj _ (conj _ (conj _ _)))))); auto. Qed.
  Lemma ops_fine : forall fuel n n' E, tinv E n -> ps_ops bis sep eps intersection fuel n = Some n' -> inner_wider eps n' -> fineT n' /\ ps_in n' = new_in n /\ ps_out n' = new_out n.
  Proof.
    induction fuel as [|fuel IH]; intros n n' E I H IW; [discriminate|]. assert (V := tinv_node E n I). destruct (step_good E n V) as (GA & GB & EA & EB). assert (SF := step_fine E n V).
    cbn [ps_ops] in H. destruct (sep (b_hull (ps_in n) (ps_out n)) (b_hull (ps_in n) (ps_out n))) as [xi xo] eqn:ES.
    assert (EQa : (if intersection then b_hull (ps_in n) xi else b_inter (ps_in n) xi) = new_in n) by (unfold new_in; cbv zeta; rewrite ES; reflexivity).
    assert (EQb : (if intersection then b_inter (ps_out n) xo else b_hull (ps_out n) xo) = new_out n) by (unfold new_out; cbv zeta; rewrite ES; reflexivity).
    cbv zeta in H. rewrite EQa, EQb in H. clear EQa EQb ES xi xo. set (a := new_in n) in *. set (b := new_out n) in *.
    destruct (negb (b_is_empty (b_inter a b)) && wider eps (b_inter a b)) eqn:EW.
    - apply andb_true_iff in EW. destruct EW as (EN & EW). apply negb_true_iff in EN.
      assert (CH : forall l r, (exists El, tinv El l) -> (exists Er, tinv Er r) ->
        match ps_ops bis sep eps intersection fuel (ps_set (b_inter (ps_in l) (ps_in n)) (b_inter (ps_out l) (ps_out n)) l),
              ps_ops bis sep eps intersection fuel (ps_set (clear_flat (b_inter (ps_in r) (ps_in n))) (clear_flat (b_inter (ps_out r) (ps_out n))) r) with
        | Some l0, Some r0 => Some (PNode a b l0 r0) | _, _ => None end = Some n' -> fineT n' /\ ps_in n' = a /\ ps_out n' = b).
      { intros l r (El & Il) (Er & Ir) K. assert (Tl := cut_thick E El n l V (tinv_node _ _ Il)). assert (Tr := cut_thick E Er n r V (tinv_node _ _ Ir)). destruct (clear_thick _ _ _ Tr) as (Er' & Tr').
        revert K. destruct (ps_ops bis sep eps intersection fuel (ps_set (b_inter _ _) _ l)) as [l'|] eqn:E1; [|discriminate]. destruct (ps_ops bis sep eps intersection fuel (ps_set _ _ r)) as [r'|] eqn:E2; [|discriminate]. intros K. injection K as <-.
        destruct IW as (_ & Wl & Wr). split; auto. split; auto. split; [apply (IH _ l' _ (tinv_set _ _ _ _ _ Il Tl) E1 Wl)|apply (IH _ r' _ (tinv_set _ _ _ _ _ Ir Tr') E2 Wr)]. }
      destruct n as [a0 b0|a0 b0 l r].
      + destruct (bis (b_inter b a)) as [[x1 x2]|] eqn:EB'; [|discriminate]. cbn [option_map fst snd] in H. assert (GX := good_inter N b a GB GA).
        assert (NX : b_is_empty (b_inter b a) = false).
        { destruct (good_point N (b_inter a b)) as (p & Hp); auto using good_inter. apply (inb_empty p). apply (inter_pts N); auto. apply (inter_pts N) in Hp; tauto. }
        destruct (HB _ _ _ GX NX EB') as ((G1 & _) & (G2 & _) & _). apply (CH (ps_new x1) (ps_new x2)); [exists x1|exists x2|exact H]; apply new_tinv; auto.
      + destruct I as (_ & El & Er & Il & Ir). apply (CH l r); eauto.
    - destruct (b_is_empty (b_inter a b) || dlt (max_diam (b_inter a b)) (Some eps)) eqn:ED; [injection H as <-; cbn; auto|]. injection H as <-. destruct (set_in a b n) as (Z1 & Z2).
      destruct n as [a0 b0|a0 b0 l r]; [cbn; auto|]. exfalso. cbn [ps_set inner_wider] in IW. destruct IW as ((W1 & W2) & _). rewrite W1, W2 in EW. discriminate.
  Qed.
End Ops.
(** A call to Sivia_ops with a separator of [T], after calls to Sivia and Reunite with separators of [S], such that no inner
    node remains with a common part of width [eps]: for the union, isInside answers YES for points of [T] or of the closure of
    [S] only, NO for points that are neither in [T] nor in the interior of [S] only, and an answer for the points of the
    initial box only; for the intersection, YES for points of [T] that are in the closure of [S] only, NO for points that are
    not both in [T] and in the interior of [S] only.  Missing: the boundary of [S], and the inner nodes of width [eps], for
    which this is false ([C93_flat_refuted], [C93_eps_refuted]). *)
Theorem C93_partial : forall N S T diff sep bis eps E l n fuel n' p, (0 < N)%nat -> pdiff_lim N diff -> good N E -> Forall (op_ok N S) l -> Forall (op_bd N S) l ->
  ps_run diff l (ps_new E) = Some n -> psep N T sep -> pbis N bis ->
  (ps_ops bis sep eps false fuel n = Some n' -> inner_wider eps n' -> inb p E ->
    match ps_inside n' p with BYes => limit S p \/ T p | BNo => ~ inner S p /\ ~ T p | BMaybe => True | BEmpty => False end) /\
  (ps_ops bis sep eps true fuel n = Some n' -> inner_wider eps n' -> inb p E ->
    match ps_inside n' p with BYes => limit S p /\ T p | BNo => ~ (inner S p /\ T p) | BMaybe => True | BEmpty => False end).
Proof.
  intros N S T diff sep bis eps E l n fuel n' p N0 HD GE F1 F2 HR HT HB. assert (I := run_bd N S diff E l n HD GE F1 F2 HR). assert (TI := pinv_tinv N S _ _ n E I).
  assert (V := pinv_node _ _ _ _ _ _ I). destruct V as (_ & Ga & Gb & Sa & Sb & Ka & Kb & _).
  set (x0 := b_hull (ps_in n) (ps_out n)). assert (G0 : good N x0) by (apply good_hull; auto). destruct (p_good N T sep HT x0 x0 G0 G0) as (G1 & G2).
  assert (X0 : inb p E -> inb p x0) by (intros HE; apply (hull_pts N); auto; destruct (classic (S p)); auto).
  assert (NE : forall inter, inb p E -> inb p (new_in sep inter n) \/ inb p (new_out sep inter n)).
  { intros inter HE. unfold new_in, new_out. cbv zeta. fold x0. destruct inter.
    - destruct (classic (S p)) as [HS|HS]; [|left; apply (hull_pts N); auto]. destruct (classic (T p)) as [H|H]; [right; apply (inter_pts N); auto; split; auto; apply (p_keep_out N T sep HT); auto|].
      left. apply (hull_pts N); auto. right. apply (p_keep_in N T sep HT); auto.
    - destruct (classic (S p)) as [HS|HS]; [right; apply (hull_pts N); auto|]. destruct (classic (T p)) as [H|H]; [right; apply (hull_pts N); auto; right; apply (p_keep_out N T sep HT); auto|].
      left. apply (inter_pts N); auto. split; auto. apply (p_keep_in N T sep HT); auto. }
  assert (NB : forall m, inb p (ps_in m) \/ inb p (ps_out m) -> ps_inside m p <> BEmpty).
  { induction m as [a b|a b u IHu v IHv]; cbn [ps_inside ps_in ps_out]; intros K; assert (K1 := b_contains_ok a p); assert (K2 := b_contains_ok b p); destruct (b_contains a p), (b_contains b p); try discriminate;
    try (destruct K as [K|K]; [apply K1 in K|apply K2 in K]; discriminate).
    destruct (b_contains (ps_in u) p || b_contains (ps_out u) p) eqn:CU; [apply IHu; apply orb_true_iff in CU; rewrite !b_contains_ok in CU; auto|].
    destruct (b_contains (ps_in v) p || b_contains (ps_out v) p) eqn:CV; [apply IHv; apply orb_true_iff in CV; rewrite !b_contains_ok in CV; auto|discriminate]. }
  split; intros H IW HE.
  - destruct (ops_fine N S T sep bis eps false N0 HT HB fuel n n' E TI H IW) as (FI & Z1 & Z2). assert (K := fine_inside S T false n' FI p). assert (Q := NB n'). rewrite Z1, Z2 in Q. specialize (Q (NE false HE)).
    destruct (ps_inside n' p); auto. split; intros X; apply K; [left|right]; auto.
  - destruct (ops_fine N S T sep bis eps true N0 HT HB fuel n n' E TI H IW) as (FI & Z1 & Z2). assert (K := fine_inside S T true n' FI p). assert (Q := NB n'). rewrite Z1, Z2 in Q. specialize (Q (NE true HE)).
    destruct (ps_inside n' p); auto.
Qed.

(** ** Concrete calls to Sivia_ops *)
(** a segment [a,b] *)
Definition itv_S (a b : R) (p : list R) : Prop := inb p [I2 a b].
Definition itv_sep (a b : R) : sep_t := sep_abc (halfline_l a) (halfline_r b) [I2 a b].
Lemma itv_sep_ok a b : a <= b -> psep 1 (itv_S a b) (itv_sep a b) /\ keeps_bdry 1 (itv_S a b) (itv_sep a b).
Proof.
  intros L0. apply sep_abc_ok; try apply good_l; [apply good_1; lra|auto|]. intros [|v [|u p]] L NS; try discriminate L.
  destruct (Rle_dec v a); [left; constructor; [cbn; tauto|constructor]|right; constructor; [|constructor]]. cbn. cut (b <= v); [tauto|]. apply Rnot_lt_le. intros K. apply NS. constructor; [cbn; lra|constructor].
Qed.
Ltac norm3 t := let H := fresh "N" in
  eassert (H : t = _) by (unfold b_is_flat, max_diam, dlt, I2; cbn; reval; reflexivity); rewrite ?H; clear H.
Ltac ev3 := match goal with
 | |- context [b_is_flat ?a] => lit a; norm3 (b_is_flat a)
 | |- context [dlt (max_diam ?a) (Some ?e)] => lit a; norm3 (dlt (max_diam a) (Some e))
 end.
Ltac ogo := repeat (progress (pgo; repeat ev3; unfold itv_sep, sep_abc, halfline_l, halfline_r, clear_flat; cbn [ps_ops ps_set ps_new ps_in ps_out option_map fst snd]; cbv zeta)).
(** the union of the paving of [0,5] with [3,8], and their intersection *)
Definition seg_union : psn := PNode [I2 (-2) 12] [I2 0 8] (PLeaf [I2 0 0] [I2 0 (9 / 4)]) (PLeaf [Emp] [I2 (9 / 4) 5]).
Definition seg_inter : psn := PNode [I2 (-2) 12] [I2 3 5] (PLeaf [I2 0 (9 / 4)] [Emp]) (PLeaf [I2 (9 / 4) 3] [I2 3 5]).
Lemma seg_ops_union : ps_ops cbis (itv_sep 3 8) (1 / 2) false 2 seg_tree = Some seg_union.
Proof. unfold seg_tree. cbn [ps_ops]. ogo. reflexivity. Qed.
Lemma seg_ops_inter : ps_ops cbis (itv_sep 3 8) (1 / 2) true 2 seg_tree = Some seg_inter.
Proof. unfold seg_tree. cbn [ps_ops]. ogo. reflexivity. Qed.
Example C93_case : ps_inside seg_union [4] = BYes /\ ps_inside seg_union [9] = BNo /\ ps_inside seg_union [7] = BMaybe /\ ps_inside seg_inter [4] = BYes /\ ps_inside seg_inter [1] = BNo /\
  (limit seg_S [4] /\ itv_S 3 8 [4]) /\ ~ inner seg_S [9] /\ ~ (inner seg_S [1] /\ itv_S 3 8 [1]).
Proof.
  assert (U4 : ps_inside seg_union [4] = BYes) by (unfold seg_union; cbn [ps_inside ps_in ps_out]; pgo; cbn [ps_inside ps_in ps_out]; pgo; reflexivity).
  assert (U9 : ps_inside seg_union [9] = BNo) by (unfold seg_union; cbn [ps_inside ps_in ps_out]; pgo; cbn [ps_inside ps_in ps_out]; pgo; reflexivity).
  assert (U7 : ps_inside seg_union [7] = BMaybe) by (unfold seg_union; cbn [ps_inside ps_in ps_out]; pgo; cbn [ps_inside ps_in ps_out]; pgo; reflexivity).
  assert (I4 : ps_inside seg_inter [4] = BYes) by (unfold seg_inter; cbn [ps_inside ps_in ps_out]; pgo; cbn [ps_inside ps_in ps_out]; pgo; reflexivity).
  assert (I1 : ps_inside seg_inter [1] = BNo) by (unfold seg_inter; cbn [ps_inside ps_in ps_out]; pgo; cbn [ps_inside ps_in ps_out]; pgo; reflexivity).
  assert (K := fun n' p => C93_partial 1 seg_S (itv_S 3 8) cdiff (itv_sep 3 8) cbis (1 / 2) [I2 (-2) 12] seg_ops seg_tree 2 n' p ltac:(lia) (cdiff_lim 1) (proj1 (good_1 (-2) 12 ltac:(lra))) (proj1 seg_ops_ok) (proj2 seg_ops_ok) seg_run
    (proj1 (itv_sep_ok 3 8 ltac:(lra))) (cbis_pbis 1)).
  assert (WU : inner_wider (1 / 2) seg_union) by (unfold seg_union; cbn [inner_wider]; pgo; auto).
  assert (WI : inner_wider (1 / 2) seg_inter) by (unfold seg_inter; cbn [inner_wider]; pgo; auto).
  assert (P : forall v, -2 <= v <= 12 -> inb [v] [I2 (-2) 12]) by (intros v Hv; constructor; [exact Hv|constructor]).
  assert (A := proj2 (K seg_inter [4]) seg_ops_inter WI (P 4 ltac:(lra))). rewrite I4 in A.
  assert (B := proj1 (K seg_union [9]) seg_ops_union WU (P 9 ltac:(lra))). rewrite U9 in B.
  assert (C := proj2 (K seg_inter [1]) seg_ops_inter WI (P 1 ltac:(lra))). rewrite I1 in C. tauto.
Qed.
(** The union of {3} with [0,1]: the box [3,3] of the right child is flat and emptied, isInside answers NO for the point 3. *)
Definition pt_tree : psn := PLeaf [I2 0 4] [I2 3 3].
Definition pt_union : psn := PNode [I2 0 4] [I2 0 3] (PLeaf [I2 0 (27 / 20)] [I2 0 1]) (PLeaf [I2 (27 / 20) 3] [Emp]).
Lemma pt_b : cbis [I2 0 3] = Some ([I2 0 (27 / 20)], [I2 (27 / 20) 3]). Proof. apply cbis_1; lra. Qed.
Global Hint Rewrite pt_b : pset.
Lemma pt_run : ps_run cdiff [OSivia cbis (itv_sep 3 3) (1 / 2) 1] (ps_new [I2 0 4]) = Some pt_tree.
Proof. cbn [ps_run ps_sivia ps_new ps_in ps_out]. ogo. reflexivity. Qed.
Lemma pt_ops : ps_ops cbis (itv_sep 0 1) 2 false 2 pt_tree = Some pt_union.
Proof. unfold pt_tree. cbn [ps_ops]. ogo. reflexivity. Qed.
Theorem C93_flat_refuted : exists N S T diff sep bis eps E l n fuel n' p, (0 < N)%nat /\ pdiff_lim N diff /\ good N E /\ Forall (op_ok N S) l /\ Forall (op_bd N S) l /\ ps_run diff l (ps_new E) = Some n /\
  psep N T sep /\ keeps_bdry N T sep /\ pbis N bis /\ ps_ops bis sep eps false fuel n = Some n' /\ inner_wider eps n' /\ inb p E /\ ps_inside n' p = BNo /\ S p.
Proof.
  exists 1%nat, (itv_S 3 3), (itv_S 0 1), cdiff, (itv_sep 0 1), cbis, 2, [I2 0 4], [OSivia cbis (itv_sep 3 3) (1 / 2) 1], pt_tree, 2%nat, pt_union, [3].
  destruct (itv_sep_ok 3 3) as (A1 & A2); [lra|]. destruct (itv_sep_ok 0 1) as (B1 & B2); [lra|].
  refine (conj _ (conj (cdiff_lim 1) (conj (proj1 (good_1 0 4 ltac:(lra))) (conj _ (conj _ (conj pt_run (conj B1 (conj B2 (conj (cbis_pbis 1) (conj pt_ops (conj _ (conj _ (conj _ _))))))))))))).
  - lia.
  - apply Forall_cons; [split; [apply cbis_pbis|exact A1]|apply Forall_nil].
  - apply Forall_cons; [exact A2|apply Forall_nil].
  - unfold pt_union. cbn [inner_wider]. pgo. auto.
  - constructor; [cbn; lra|constructor].
  - unfold pt_union; cbn [ps_inside ps_in ps_out]; pgo; cbn [ps_inside ps_in ps_out]; pgo. reflexivity.
  - constructor; [cbn; lra|constructor].
Qed.
(** The intersection of [0,5] with {3, 5}, eps = 2: the common part [3,5] of the two boxes of the root has the width eps, the
    children are neither removed nor updated, isInside answers YES for the point 4. *)
Definition two_pts (p : list R) : Prop := itv_S 3 3 p \/ itv_S 5 5 p.
Definition two_pts_sep : sep_t := sep_abc [Itv None None] [Itv None None] [I2 3 5].
Lemma two_pts_ok : psep 1 two_pts two_pts_sep.
Proof.
  assert (G : good 1 [Itv None None]) by (split; [reflexivity|split; [constructor; [exact Logic.I|constructor]|intros _ [H|[]]; discriminate]]).
  apply sep_abc_ok; auto; [apply good_1; lra| |].
  - intros p _ [H|H]; inversion H as [|v ? q ? Hv Hq]; subst; inversion Hq; subst; (constructor; [cbn in *; lra|constructor]).
  - intros [|v [|u p]] L _; try discriminate L. left. constructor; [cbn; auto|constructor].
Qed.
Definition stale : psn := PNode [I2 (-2) 12] [I2 3 5] (PLeaf [I2 0 0] [I2 0 (9 / 4)]) (PLeaf [I2 5 5] [I2 (9 / 4) 5]).
Lemma stale_ops : ps_ops cbis two_pts_sep 2 true 2 seg_tree = Some stale.
Proof. unfold seg_tree, two_pts_sep. cbn [ps_ops]. ogo. reflexivity. Qed.
Theorem C93_eps_refuted : exists N S T diff sep bis eps E l n fuel n' p, (0 < N)%nat /\ pdiff_lim N diff /\ good N E /\ Forall (op_ok N S) l /\ Forall (op_bd N S) l /\ ps_run diff l (ps_new E) = Some n /\
  psep N T sep /\ pbis N bis /\ ps_ops bis sep eps true fuel n = Some n' /\ inb p E /\ ps_inside n' p = BYes /\ ~ T p.
Proof.
  exists 1%nat, seg_S, two_pts, cdiff, two_pts_sep, cbis, 2, [I2 (-2) 12], seg_ops, seg_tree, 2%nat, stale, [4].
  refine (conj _ (conj (cdiff_lim 1) (conj (proj1 (good_1 (-2) 12 ltac:(lra))) (conj (proj1 seg_ops_ok) (conj (proj2 seg_ops_ok) (conj seg_run (conj two_pts_ok (conj (cbis_pbis 1) (conj stale_ops (conj _ (conj _ _))))))))))).
  - lia.
  - constructor; [cbn; lra|constructor].
  - unfold stale; cbn [ps_inside ps_in ps_out]; pgo; cbn [ps_inside ps_in ps_out]; pgo. reflexivity.
  - intros [H|H]; inversion H as [|v ? q ? Hv Hq]; subst; cbn in Hv; lra.
Qed.

Print Assumptions C92_partial.
Print Assumptions C92_flat_refuted.
Print Assumptions C92_pair_refuted.
Print Assumptions C92_outside_refuted.
Print Assumptions C93_partial.
Print Assumptions C93_flat_refuted.
Print Assumptions C93_eps_refuted.

(** ** The precision of Sivia *)
(** the undetermined part of a leaf *)
Fixpoint narrow (eps : R) (n : psn) : Prop :=
  match n with
  | PLeaf a b => b_is_empty (b_inter a b) = true \/ wider eps (b_inter a b) = false
  | PNode _ _ l r => narrow eps l /\ narrow eps r
  end.
(** the boxes of the nodes are results of the separator *)
Fixpoint from_sep (sep : sep_t) (n : psn) : Prop :=
  (exists x, (ps_in n, ps_out n) = sep x x) /\ match n with PLeaf _ _ => True | PNode _ _ l r => from_sep sep l /\ from_sep sep r end.
(** After Sivia from an initial box, the undetermined part of each leaf is empty or not wider than eps, and the boxes of each
    node are the result of a call of the separator with the same two boxes. *)
Theorem C91_eps : forall bis sep eps fuel E n, ps_sivia bis sep eps fuel (ps_new E) = Some n -> narrow eps n /\ from_sep sep n.
Proof.
  intros bis sep eps. induction fuel as [|fuel IH]; intros E n H; [discriminate|]. cbn [ps_sivia ps_new ps_in ps_out ps_set] in H. destruct (sep E E) as [a b] eqn:ES.
  destruct (negb (b_is_empty (b_inter a b)) && wider eps (b_inter a b)) eqn:W.
  - destruct (bis (b_inter b a)) as [[x1 x2]|]; [|discriminate]. cbn [option_map fst snd] in H. destruct (ps_sivia bis sep eps fuel (ps_new x1)) as [l|] eqn:E1; [|discriminate].
    destruct (ps_sivia bis sep eps fuel (ps_new x2)) as [r|] eqn:E2; [|discriminate]. injection H as <-. apply IH in E1, E2. cbn. split; [tauto|]. split; [|tauto]. exists E. auto.
  - injection H as <-. cbn. split; [|split; auto; exists E; auto]. destruct (b_is_empty (b_inter a b)); auto.
Qed.
Example C91_eps_case : narrow (1 / 2) seg_tree /\ from_sep seg_sep seg_tree.
Proof. apply (C91_eps cbis seg_sep (1 / 2) 2 [I2 (-2) 12]). exact seg_sivia. Qed.
Print Assumptions C91_eps.
