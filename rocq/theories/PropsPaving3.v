(** * C42, C43, C63: SIVIAPaving, copies, examples *)

From Coq Require Import Reals Lra Lia Bool List Arith NArith.
Import ListNotations.
From Verif Require Import Itv PropsDyn2 Static PropsStatic Sivia PropsSivia PropsSiviaTerm PropsSiviaEx Concrete Paving PropsPaving PropsPaving2.
Open Scope R_scope.

(** ** SIVIAPaving::compute *)
(** a test that only decides what is true *)
Record test_ok (P : list R -> Prop) (test : box -> option N) : Prop := {
  t_val : forall x v, test x = Some v -> v = V_IN \/ v = V_OUT;
  t_in : forall x p, Forall wf x -> test x = Some V_IN -> inb p x -> P p;
  t_out : forall x p, Forall wf x -> test x = Some V_OUT -> inb p x -> ~ P p }.
(** the leaves cover the box, they are well classified *)
Definition classified (P : list R -> Prop) (precision : R) (x : box) (l : list cell) : Prop :=
  (forall p, inb p x -> exists c, List.In c l /\ inb p (c_box c)) /\
  (forall c, List.In c l -> Forall2 sub (c_box c) x /\
     ((c_val c = V_IN /\ forall p, inb p (c_box c) -> P p) \/ (c_val c = V_OUT /\ forall p, inb p (c_box c) -> ~ P p) \/
      (c_val c = V_UNKNOWN /\ max_diam_lt precision (c_box c) = true))).
Lemma compute_classified P test bis precision : test_ok P test -> bis_ok bis -> forall fuel c next p n, Forall wf (c_box c) ->
  compute test bis precision fuel c next = Some (p, n) -> classified P precision (c_box c) (leaves p).
Proof.
  intros HT HB. induction fuel as [|fuel IH]; intros c next p n W E; cbn [compute] in E.
  all: destruct (test (c_box c)) as [v|] eqn:Et.
  1,3: injection E; intros <- <-; split; [intros q Hq; exists (with_val v c); split; [left|]; auto|];
       intros d [<-|[]]; split; [apply F2_sub_refl|]; cbn; destruct (t_val _ _ HT _ _ Et) as [->| ->];
       [left; split; auto; intros q Hq; eapply t_in; eauto|right; left; split; auto; intros q Hq; eapply t_out; eauto].
  all: destruct (max_diam_lt precision (c_box c)) eqn:M.
  1,3: injection E; intros <- <-; split; [intros q Hq; exists (with_val V_UNKNOWN c); split; [left|]; auto|];
       intros d [<-|[]]; split; [apply F2_sub_refl|]; cbn; auto.
  - discriminate.
  - destruct (bis (c_box c)) as [[x1 x2]|] eqn:Eb; [|discriminate].
    destruct (compute _ _ _ _ (mkC next _ _ _) _) as [[p1 n1]|] eqn:E1; [|discriminate].
    destruct (compute _ _ _ _ (mkC (S next) _ _ _) _) as [[p2 n2]|] eqn:E2; [|discriminate]. injection E; intros <- <-.
    destruct (b_wf _ HB _ _ _ Eb W) as [W1 W2]. destruct (b_sub _ HB _ _ _ Eb) as [S1 S2].
    apply IH in E1; auto. apply IH in E2; auto. destruct E1 as [C1 D1], E2 as [C2 D2]. cbn [c_box] in *. split.
    + intros q Hq. destruct (b_cover _ HB _ _ _ q Eb Hq) as [H|H]; [destruct (C1 q H) as (d & D & K)|destruct (C2 q H) as (d & D & K)];
        exists d; split; auto; cbn; apply in_or_app; auto.
    + intros d Hd. cbn in Hd. apply in_app_or in Hd. destruct Hd as [Hd|Hd]; [destruct (D1 d Hd) as [K1 K2]|destruct (D2 d Hd) as [K1 K2]];
        split; auto; eapply F2_sub_trans; eauto.
Qed.
(** the bisector keeps the boxes bounded and not empty *)
Definition bis_bounded (bis : box -> option (box * box)) : Prop :=
  forall x x1 x2, Forall bounded x -> bis x = Some (x1, x2) -> Forall bounded x1 /\ Forall bounded x2.
Lemma compute_ends test bis q precision : bis_ok bis -> bis_shrinks q bis -> bis_bounded bis -> 0 < precision -> forall w c next, Forall bounded (c_box c) ->
  weigh q precision (c_box c) w -> exists p n, compute test bis precision w c next = Some (p, n).
Proof.
  intros HB HS HK Hp. induction w as [|w IH]; intros c next B Hw; cbn [compute].
  all: destruct (test (c_box c)) as [v|]; [eauto|]; destruct (max_diam_lt precision (c_box c)) eqn:M; [eauto|].
  all: destruct (weigh_bis q precision (sh_q _ _ HS) Hp bis HB HS _ _ B Hw M) as (x1 & x2 & w' & Eb & Ew & K1 & K2); [try discriminate].
  injection Ew; intros <-. rewrite Eb. destruct (HK _ _ _ B Eb) as [B1 B2].
  destruct (IH (mkC next x1 (c_val c) (c_root c)) (S (S next))) as (p1 & n1 & ->); auto.
  destruct (IH (mkC (S next) x2 (c_val c) (c_root c)) n1) as (p2 & n2 & ->); auto. eauto.
Qed.
Lemma sivia_paving_classified P test bis precision x fuel p : test_ok P test -> bis_ok bis -> Forall wf x ->
  sivia_paving test bis precision x fuel = Some p -> classified P precision x (leaves p).
Proof.
  intros HT HB W E. unfold sivia_paving in E. destruct (compute _ _ _ _ _ _) as [[p1 n1]|] eqn:Ec; [|discriminate]. injection E; intros <-.
  change x with (c_box (mkC 0 x V_UNKNOWN 0)). eapply compute_classified; eauto.
Qed.
Theorem C63_ends : forall test bis q precision x, bis_ok bis -> bis_shrinks q bis -> bis_bounded bis -> 0 < precision -> Forall bounded x ->
  exists fuel p, sivia_paving test bis precision x fuel = Some p.
Proof.
  intros test bis q precision x HB HS HK Hp B. destruct (weigh_exists q precision (sh_q _ _ HS) Hp x B) as (w & Hw).
  destruct (compute_ends test bis q precision HB HS HK Hp w (mkC 0 x V_UNKNOWN 0) 1 B Hw) as (p & n & E).
  exists w, p. unfold sivia_paving. rewrite E. auto.
Qed.

(** the contractor *)
Theorem C63_ctc : forall P ctc bis precision x fuel p, ctc_ok P ctc -> bis_ok bis -> Forall wf x ->
  sivia_paving (test_ctc ctc) bis precision x fuel = Some p -> classified P precision x (leaves p).
Proof.
  intros P ctc bis precision x fuel p HC HB W E. eapply sivia_paving_classified; eauto. constructor.
  - intros y v H. unfold test_ctc in H. destruct (b_is_empty _); [|discriminate]. right; congruence.
  - intros y q _ H. exfalso. unfold test_ctc in H. destruct (b_is_empty _); unfold V_IN, V_OUT in H; congruence.
  - intros y q _ H Hq Pq. unfold test_ctc in H. destruct (b_is_empty (ctc y)) eqn:Ey; [|discriminate].
    apply (empty_no_point _ q Ey). apply (c_keeps _ _ HC); auto.
Qed.
(** the separator *)
Theorem C63_sep : forall (S : list R -> Prop) sep bis precision x fuel p, (forall q, S q \/ ~ S q) -> sep_ok S sep -> bis_ok bis -> Forall wf x ->
  sivia_paving (test_sep sep) bis precision x fuel = Some p -> classified S precision x (leaves p).
Proof.
  intros S sep bis precision x fuel p Dec HS HB W E. eapply sivia_paving_classified; eauto. constructor.
  - intros y v H. unfold test_sep in H. destruct (b_is_empty _); [first [left; congruence|right; congruence]|]. destruct (b_is_empty _); [first [left; congruence|right; congruence]|discriminate].
  - intros y q _ H Hq. unfold test_sep in H. destruct (b_is_empty (fst (sep y y))) eqn:E1.
    + destruct (Dec q) as [K|K]; auto. exfalso. apply (empty_no_point _ q E1). apply (s_keep_in _ _ HS); auto.
    + exfalso. destruct (b_is_empty (snd (sep y y))); unfold V_IN, V_OUT in H; congruence.
  - intros y q _ H Hq Sq. unfold test_sep in H. destruct (b_is_empty (fst (sep y y))) eqn:E1; [exfalso; unfold V_IN, V_OUT in H; congruence|].
    destruct (b_is_empty (snd (sep y y))) eqn:E2; [|discriminate]. apply (empty_no_point _ q E2). apply (s_keep_out _ _ HS); auto.
Qed.
(** the inversion of a function, defined everywhere *)
Lemma forallb_combine (g : itv * itv -> bool) : forall a b k i j, forallb g (combine a b) = true -> nth_error a k = Some i -> nth_error b k = Some j -> g (i, j) = true.
Proof.
  induction a as [|x a IH]; intros b k i j H Ha Hb; [destruct k; discriminate|]. destruct b as [|y b]; [destruct k; discriminate|].
  cbn in H. apply andb_true_iff in H. destruct H as [H1 H2]. destruct k; cbn in *; [congruence|eauto].
Qed.
Lemma subset_in a b q : b_is_subset a b = true -> length a = length b -> inb q a -> inb q b.
Proof.
  intros H L Hq. unfold b_is_subset in H. rewrite (inb_empty _ _ Hq) in H. destruct (b_is_empty b); [discriminate|].
  eapply subset_all; eauto.
Qed.
Lemma intersects_in a b q : inb q a -> inb q b -> b_intersects a b = true.
Proof.
  intros Ha Hb. unfold b_intersects. rewrite (inb_empty _ _ Ha), (inb_empty _ _ Hb). cbn.
  revert b Hb. induction Ha as [|v i q a Hv Ha IH]; intros b Hb; inversion Hb; subst; auto. cbn. rewrite IH by auto. rewrite andb_true_r.
  assert (K : In v (inter i y)) by (apply In_inter; auto). destruct (inter i y); [destruct K|auto].
Qed.
Theorem C63_fun : forall (f : list R -> list R) F y bis precision x fuel p, (forall x q, inb q x -> inb (f q) (F x)) ->
  (forall x, length (F x) = length y) -> bis_ok bis -> Forall wf x ->
  sivia_paving (test_fun F y) bis precision x fuel = Some p -> classified (fun q => inb (f q) y) precision x (leaves p).
Proof.
  intros f F y bis precision x fuel p HF HL HB W E. eapply sivia_paving_classified; eauto. constructor.
  - intros z v H. unfold test_fun in H. destruct (b_is_subset _ _); [first [left; congruence|right; congruence]|]. destruct (negb _); [first [left; congruence|right; congruence]|discriminate].
  - intros z q _ H Hq. unfold test_fun in H. destruct (b_is_subset (F z) y) eqn:E1; [|exfalso; destruct (b_intersects (F z) y); unfold V_IN, V_OUT in H; cbn in H; congruence].
    eapply subset_in; eauto.
  - intros z q _ H Hq Pq. unfold test_fun in H. destruct (b_is_subset (F z) y) eqn:E1; [exfalso; unfold V_IN, V_OUT in H; congruence|].
    rewrite (intersects_in _ _ (f q)) in H; auto. discriminate.
Qed.
(** A function that is not defined on the whole box, as the square root: boxes without any solution are IN. *)
Definition F_sqrt (x : box) : box :=
  match x with Itv _ (Some b) :: _ => if Rltb b 0 then [Emp] else [Itv (Some 0) None] | _ => [Itv (Some 0) None] end.
Definition f_sqrt (q : list R) : option (list R) :=
  match q with v :: _ => if Rle_dec 0 v then Some [sqrt v] else None | [] => None end.
Theorem C63_refuted : exists (f : list R -> option (list R)) F y x p,
  (forall x q r, inb q x -> f q = Some r -> inb r (F x)) /\ (forall x, length (F x) = length y) /\ Forall wf x /\
  (forall bis precision fuel, sivia_paving (test_fun F y) bis precision x fuel = Some p) /\
  exists c, List.In c (leaves p) /\ c_val c = V_IN /\ inb [-1; 0] (c_box c) /\ (forall q, inb q (c_box c) -> f q = None).
Proof.
  exists f_sqrt, F_sqrt, [Itv (Some 0) None], [I2 (-2) (-1); I2 0 1], (Leaf (mkC 0 [I2 (-2) (-1); I2 0 1] V_IN 0)).
  refine (conj _ (conj _ (conj _ (conj _ _)))).
  - intros x q r Hq E. destruct Hq as [|v i q x Hv Hq]; cbn in E; [discriminate|]. destruct (Rle_dec 0 v) as [L|]; [|discriminate]. injection E; intros <-.
    assert (K : inb [sqrt v] [Itv (Some 0) None]) by (constructor; [cbn; split; auto; apply sqrt_pos|constructor]).
    destruct i as [|l [b|]]; cbn [F_sqrt]; auto. destruct (Rltb b 0) eqn:Eb; auto. apply Rltb_true in Eb. exfalso.
    destruct l; cbn in Hv; lra.
  - intros [|[|l [b|]] x]; cbn; auto. destruct (Rltb b 0); auto.
  - boxt.
  - intros bis precision fuel. unfold sivia_paving. destruct fuel; cbn [compute c_box]; unfold test_fun; cbn [F_sqrt I2];
      rewrite Rltb_t by lra; reflexivity.
  - eexists. split; [left; reflexivity|]. split; [reflexivity|]. split; [cbn; boxt|].
    intros q Hq. inversion Hq as [|v i q' x Hv Hq']; subst. cbn in *. destruct (Rle_dec 0 v); auto. lra.
Qed.

(** ** SIVIAPaving: connected subsets and boxes *)
Lemma compute_part test bis precision : bis_ok bis -> forall fuel c next p n, Forall wf (c_box c) -> length (c_box c) = 2%nat -> (c_addr c < next)%nat ->
  compute test bis precision fuel c next = Some (p, n) ->
  part_ok p n /\ (next <= n)%nat /\ same_but_val (p_cell p) c /\ (forall d, List.In d (cells p) -> c_root d = c_root c) /\
  (forall a, List.In a (addrs p) -> a = c_addr c \/ (next <= a < n)%nat).
Proof.
  intros HB.
  assert (One : forall v c next, Forall wf (c_box c) -> length (c_box c) = 2%nat -> (c_addr c < next)%nat ->
    part_ok (Leaf (with_val v c)) next /\ (next <= next)%nat /\ same_but_val (p_cell (Leaf (with_val v c))) c /\
    (forall d, List.In d (cells (Leaf (with_val v c))) -> c_root d = c_root c) /\
    (forall a, List.In a (addrs (Leaf (with_val v c))) -> a = c_addr c \/ (next <= a < next)%nat)).
  { intros v c next W L A. refine (conj _ (conj (Nat.le_refl _) (conj (sbv_val _ _) (conj _ _)))).
    - constructor; cbn; auto; [repeat constructor; intros []|intros d [<-|[]]; auto|intros d [<-|[]]; auto].
    - intros d [<-|[]]; auto.
    - unfold addrs. cbn. intros a [<-|[]]; auto. }
  induction fuel as [|fuel IH]; intros c next p n W L A E; cbn [compute] in E.
  all: destruct (test (c_box c)) as [v|]; [injection E; intros <- <-; apply One; auto|].
  all: destruct (max_diam_lt precision (c_box c)); [injection E; intros <- <-; apply One; auto|].
  - discriminate.
  - destruct (bis (c_box c)) as [[x1 x2]|] eqn:Eb; [|discriminate].
    destruct (compute _ _ _ _ (mkC next _ _ _) _) as [[p1 n1]|] eqn:E1; [|discriminate].
    destruct (compute _ _ _ _ (mkC (S next) _ _ _) _) as [[p2 n2]|] eqn:E2; [|discriminate]. injection E; intros <- <-.
    destruct (b_wf _ HB _ _ _ Eb W) as [W1 W2]. destruct (b_sub _ HB _ _ _ Eb) as [S1 S2].
    assert (L1 := F2_len _ _ _ S1). assert (L2 := F2_len _ _ _ S2).
    apply IH in E1; cbn [c_box c_addr]; auto; try congruence; try lia. destruct E1 as (P1 & N1 & (_ & B1 & _) & R1 & A1). cbn [c_box c_addr c_root] in *.
    apply IH in E2; cbn [c_box c_addr]; auto; try congruence; try lia. destruct E2 as (P2 & N2 & (_ & B2 & _) & R2 & A2). cbn [c_box c_addr c_root] in *.
    refine (conj _ (conj _ (conj (sbv_refl _) (conj _ _)))).
    + apply node_part; auto; try lia.
      * constructor.
        -- intros H. apply in_app_or in H. destruct H as [H|H]; [apply A1 in H|apply A2 in H]; lia.
        -- apply NoDup_app_i; [apply (pk_addr _ _ P1)|apply (pk_addr _ _ P2)|]. intros a H1 H2. apply A1 in H1. apply A2 in H2. lia.
      * intros d Hd. pose proof (pk_next _ _ P1 d Hd). lia.
      * apply (pk_next _ _ P2).
      * apply (pk_nested _ _ P1).
      * apply (pk_nested _ _ P2).
      * rewrite B1; auto.
      * rewrite B2; auto.
      * apply (pk_box _ _ P1).
      * apply (pk_box _ _ P2).
    + lia.
    + intros d [<-|Hd]; auto. cbn in Hd. apply in_app_or in Hd. destruct Hd as [Hd|Hd]; auto.
    + unfold addrs. cbn. intros a [<-|Ha]; auto. rewrite map_app in Ha. apply in_app_or in Ha. destruct Ha as [Ha|Ha]; [apply A1 in Ha|apply A2 in Ha]; lia.
Qed.
Theorem C42_sivia : forall test bis precision x fuel p, bis_ok bis -> Forall wf x -> length x = 2%nat ->
  sivia_paving test bis precision x fuel = Some p -> paving_ok p.
Proof.
  intros test bis precision x fuel p HB W L E. unfold sivia_paving in E. destruct (compute _ _ _ _ _ _) as [[p1 n1]|] eqn:Ec; [|discriminate]. injection E; intros <-.
  apply compute_part in Ec; auto. destruct Ec as (P & _ & (A & _ & _) & Rt & _). destruct P as [PA PN PE PB]. constructor; auto.
  intros c Hc. rewrite A. rewrite (Rt c Hc). auto.
Qed.
(** The nodes that are bisected stay UNKNOWN: nothing is found below when UNKNOWN is a rejected value. *)
Theorem C43_sivia : forall test bis precision x fuel c p1 p2 val neg_val,
  sivia_paving test bis precision x fuel = Some (Node c p1 p2) -> N.land val neg_val = 0%N -> N.land V_UNKNOWN neg_val <> 0%N ->
  get_boxes val neg_val (Node c p1 p2) = Some [].
Proof.
  intros test bis precision x fuel c p1 p2 val neg_val E D U.
  assert (Ec : c_val c = V_UNKNOWN).
  { unfold sivia_paving in E. destruct fuel; cbn [compute c_box] in E.
    - destruct (test x); [discriminate|]. destruct (max_diam_lt _ _); discriminate.
    - destruct (test x); [discriminate|]. destruct (max_diam_lt _ _); [discriminate|]. destruct (bis x) as [[x1 x2]|]; [|discriminate].
      destruct (compute _ _ _ _ _ _) as [[q1 n1]|]; [|discriminate]. destruct (compute _ _ _ _ _ _) as [[q2 n2]|]; [|discriminate].
      injection E; intros _ _ <-. reflexivity. }
  unfold get_boxes. unfold meets at 1. rewrite D. cbn [negb N.eqb]. cbn [get_boxes_loop p_cell]. rewrite Ec.
  replace (meets V_UNKNOWN neg_val) with true by (symmetry; apply meets_iff; auto).
  replace (neg_val =? V_DEFAULT)%N with false by (symmetry; apply N.eqb_neq; intros ->; apply U; reflexivity).
  replace (meets V_UNKNOWN val) with false; [reflexivity|]. symmetry. unfold meets. apply negb_false_iff, N.eqb_eq.
  (* the bit of UNKNOWN is in neg_val, hence not in val *)
  apply N.bits_inj. intros k. rewrite N.land_spec, N.bits_0. destruct (N.eq_dec k 0) as [->|Nk].
  - cbn [N.testbit V_UNKNOWN Pos.testbit]. rewrite andb_true_l.
    assert (Bn : N.testbit neg_val 0 = true).
    { destruct (N.testbit neg_val 0) eqn:B; auto. exfalso. apply U. apply N.bits_inj. intros j. rewrite N.land_spec, N.bits_0.
      destruct (N.eq_dec j 0) as [->|Nj]; [rewrite B; apply andb_false_r|].
      replace (N.testbit V_UNKNOWN j) with false; auto. symmetry. apply (N.pow2_bits_false 0 j). auto. }
    assert (T : N.testbit (N.land val neg_val) 0 = false) by (rewrite D; reflexivity).
    rewrite N.land_spec, Bn, andb_true_r in T. auto.
  - replace (N.testbit V_UNKNOWN k) with false; auto. symmetry. apply (N.pow2_bits_false 0 k). auto.
Qed.
