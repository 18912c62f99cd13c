(** * C42, C43, C63: construction of pavings, copies, SIVIAPaving *)

From Coq Require Import Reals Lra Lia Bool List Arith NArith.
Import ListNotations.
From Verif Require Import Itv PropsDyn2 Static PropsStatic Sivia PropsSivia PropsSiviaTerm PropsSiviaEx Concrete Paving PropsPaving.
Open Scope R_scope.

(** ** The pavings that are built satisfy the hypotheses of C42 *)
(** a part of a tree: addresses below [next], boxes *)
Record part_ok (p : pav) (next : nat) : Prop := {
  pk_addr : NoDup (addrs p);
  pk_next : forall c, List.In c (cells p) -> (c_addr c < next)%nat;
  pk_nested : nested p;
  pk_box : forall c, List.In c (cells p) -> Forall wf (c_box c) /\ length (c_box c) = 2%nat }.
Definition same_but_val (a b : cell) : Prop := c_addr a = c_addr b /\ c_box a = c_box b /\ c_root a = c_root b.
Lemma sbv_refl a : same_but_val a a. Proof. repeat split. Qed.
Lemma sbv_val v a : same_but_val (with_val v a) a. Proof. repeat split. Qed.

Lemma part_node c p1 p2 next : part_ok (Node c p1 p2) next -> part_ok p1 next /\ part_ok p2 next.
Proof.
  intros [A N E B]. unfold addrs in A. cbn in A. rewrite map_app in A. inversion A; subst. destruct E as (_ & _ & E1 & E2).
  split; constructor; auto; unfold addrs; try (intros d Hd; (apply N || apply B); right; apply in_or_app; auto).
  - eapply NoDup_app_l; eauto.
  - eapply NoDup_app_r; eauto.
Qed.
(** a node from its parts: the addresses of the second part that are new are not those of the first part *)
Lemma node_part c p1 p2 next : NoDup (c_addr c :: addrs p1 ++ addrs p2) -> (c_addr c < next)%nat ->
  (forall d, List.In d (cells p1) -> (c_addr d < next)%nat) -> (forall d, List.In d (cells p2) -> (c_addr d < next)%nat) ->
  nested p1 -> nested p2 -> Forall2 sub (c_box (p_cell p1)) (c_box c) -> Forall2 sub (c_box (p_cell p2)) (c_box c) ->
  Forall wf (c_box c) -> length (c_box c) = 2%nat ->
  (forall d, List.In d (cells p1) -> Forall wf (c_box d) /\ length (c_box d) = 2%nat) ->
  (forall d, List.In d (cells p2) -> Forall wf (c_box d) /\ length (c_box d) = 2%nat) -> part_ok (Node c p1 p2) next.
Proof.
  intros A L L1 L2 N1 N2 S1 S2 W Len B1 B2. constructor.
  - unfold addrs in *. cbn. rewrite map_app. auto.
  - intros d [<-|H]; auto. apply in_app_or in H. destruct H; auto.
  - cbn. auto.
  - intros d [<-|H]; auto. apply in_app_or in H. destruct H; auto.
Qed.
Lemma addr_old p next a : part_ok p next -> List.In a (addrs p) -> (a < next)%nat.
Proof. intros [_ N _ _] H. apply in_map_iff in H. destruct H as (c & <- & H). auto. Qed.

(** bisection *)
Lemma bisect_at_ok bis : bis_ok bis -> forall p next a q n, part_ok p next -> bisect_at bis a p next = Some (q, n) ->
  part_ok q n /\ (next <= n)%nat /\ same_but_val (p_cell q) (p_cell p) /\
  (forall c, List.In c (cells q) -> (List.In c (cells p) \/ (next <= c_addr c)%nat) /\ exists d, List.In d (cells p) /\ c_root c = c_root d) /\
  (forall x, List.In x (addrs q) -> List.In x (addrs p) \/ (next <= x < n)%nat).
Proof.
  intros HB. induction p as [c|c p1 IH1 p2 IH2]; intros next a q n P E; cbn in E.
  - destruct (Nat.eqb (c_addr c) a); [|discriminate]. unfold bisect_leaf in E. destruct (bis (c_box c)) as [[x1 x2]|] eqn:Eb; [|discriminate].
    injection E; intros <- <-. destruct P as [A N E' B]. destruct (B c) as [W L]; [left; auto|].
    destruct (b_sub _ HB _ _ _ Eb) as [S1 S2]. destruct (b_wf _ HB _ _ _ Eb W) as [W1 W2].
    assert (Lc : (c_addr c < next)%nat) by (apply N; left; auto).
    refine (conj _ (conj _ (conj (sbv_refl _) (conj _ _)))).
    + apply node_part; cbn; auto; try lia.
      * repeat constructor; cbn; intuition lia.
      * intros d [<-|[]]. cbn. lia.
      * intros d [<-|[]]. cbn. lia.
      * intros d [<-|[]]. cbn. split; auto. apply F2_len in S1. congruence.
      * intros d [<-|[]]. cbn. split; auto. apply F2_len in S2. congruence.
    + lia.
    + intros d [<-|[<-|[<-|[]]]]; cbn; (split; [|exists c; split; auto]); auto; right; lia.
    + unfold addrs. cbn. intros x [<-|[<-|[<-|[]]]]; auto; right; lia.
  - destruct (Nat.eqb (c_addr c) a); [discriminate|]. destruct (part_node _ _ _ _ P) as [P1 P2].
    assert (P0 := P). destruct P as [A N E' B]. unfold addrs in A. cbn in A. rewrite map_app in A. inversion A as [|? ? A1 A2]; subst.
    destruct E' as (S1 & S2 & N1 & N2).
    assert (Lc : (c_addr c < next)%nat) by (apply N; left; auto). destruct (B c) as [W L]; [left; auto|].
    destruct (bisect_at bis a p1 next) as [[q1 m]|] eqn:E1; [|destruct (bisect_at bis a p2 next) as [[q2 m]|] eqn:E2; [|discriminate]];
      injection E; intros <- <-; clear E.
    + destruct (IH1 next a q1 m P1 E1) as (Q & Lm & (Q1 & Q2 & Q3) & Qc & Qa).
      refine (conj _ (conj Lm (conj (sbv_refl _) (conj _ _)))).
      * apply node_part; auto; try lia.
        -- constructor.
           ++ intros H. apply in_app_or in H. destruct H as [H|H].
              ** apply Qa in H. destruct H as [H|H]; [apply A1; apply in_or_app; auto|lia].
              ** apply A1. apply in_or_app; auto.
           ++ apply NoDup_app_i; [apply (pk_addr _ _ Q)|apply (pk_addr _ _ P2)|]. intros x X1 X2. apply Qa in X1. destruct X1 as [X1|X1].
              ** eapply NoDup_app_disj; eauto.
              ** pose proof (addr_old _ _ _ P2 X2). lia.
        -- apply (pk_next _ _ Q).
        -- intros d Hd. pose proof (pk_next _ _ P2 d Hd). lia.
        -- apply (pk_nested _ _ Q).
        -- rewrite Q2; auto.
        -- apply (pk_box _ _ Q).
        -- apply (pk_box _ _ P2).
      * intros d [<-|Hd].
        -- split; [left; left; auto|exists c; split; [left|]; auto].
        -- cbn in Hd. apply in_app_or in Hd. destruct Hd as [Hd|Hd].
           ++ destruct (Qc d Hd) as ([G|G] & e & He & Er); (split; [|exists e; split; auto; right; apply in_or_app; auto]); auto. left. right. apply in_or_app; auto.
           ++ split; [left; right; apply in_or_app; auto|]. exists d. split; auto. right. apply in_or_app; auto.
      * unfold addrs in *. cbn. intros x [<-|Hx]; auto. rewrite map_app in *. apply in_app_or in Hx. destruct Hx as [Hx|Hx].
        -- apply Qa in Hx. destruct Hx; auto. left. right. apply in_or_app; auto.
        -- left. right. apply in_or_app; auto.
    + destruct (IH2 next a q2 m P2 E2) as (Q & Lm & (Q1 & Q2 & Q3) & Qc & Qa).
      refine (conj _ (conj Lm (conj (sbv_refl _) (conj _ _)))).
      * apply node_part; auto; try lia.
        -- constructor.
           ++ intros H. apply in_app_or in H. destruct H as [H|H].
              ** apply A1. apply in_or_app; auto.
              ** apply Qa in H. destruct H as [H|H]; [apply A1; apply in_or_app; auto|lia].
           ++ apply NoDup_app_i; [apply (pk_addr _ _ P1)|apply (pk_addr _ _ Q)|]. intros x X1 X2. apply Qa in X2. destruct X2 as [X2|X2].
              ** eapply NoDup_app_disj; eauto.
              ** pose proof (addr_old _ _ _ P1 X1). lia.
        -- intros d Hd. pose proof (pk_next _ _ P1 d Hd). lia.
        -- apply (pk_next _ _ Q).
        -- apply (pk_nested _ _ Q).
        -- rewrite Q2; auto.
        -- apply (pk_box _ _ P1).
        -- apply (pk_box _ _ Q).
      * intros d [<-|Hd].
        -- split; [left; left; auto|exists c; split; [left|]; auto].
        -- cbn in Hd. apply in_app_or in Hd. destruct Hd as [Hd|Hd].
           ++ split; [left; right; apply in_or_app; auto|]. exists d. split; auto. right. apply in_or_app; auto.
           ++ destruct (Qc d Hd) as ([G|G] & e & He & Er); (split; [|exists e; split; auto; right; apply in_or_app; auto]); auto. left. right. apply in_or_app; auto.
      * unfold addrs in *. cbn. intros x [<-|Hx]; auto. rewrite map_app in *. apply in_app_or in Hx. destruct Hx as [Hx|Hx].
        -- left. right. apply in_or_app; auto.
        -- apply Qa in Hx. destruct Hx; auto. left. right. apply in_or_app; auto.
Qed.
(** change of value *)
Lemma set_addrs a v p : addrs (set_at a v p) = addrs p.
Proof.
  unfold addrs. induction p as [c|c p1 IH1 p2 IH2]; cbn; [destruct (Nat.eqb _ _); auto|].
  rewrite !map_app, IH1, IH2. destruct (Nat.eqb _ _); auto.
Qed.
Lemma set_cells a v p c : List.In c (cells (set_at a v p)) -> exists d, List.In d (cells p) /\ same_but_val c d.
Proof.
  induction p as [e|e p1 IH1 p2 IH2]; cbn.
  - intros [<-|[]]. exists e. split; auto. destruct (Nat.eqb _ _); [apply sbv_val|apply sbv_refl].
  - intros [<-|H]; [exists e; split; auto; destruct (Nat.eqb _ _); [apply sbv_val|apply sbv_refl]|]. apply in_app_or in H. destruct H as [H|H];
      [destruct (IH1 H) as (d & D & E)|destruct (IH2 H) as (d & D & E)]; exists d; split; auto; right; apply in_or_app; auto.
Qed.
Lemma set_head a v p : same_but_val (p_cell (set_at a v p)) (p_cell p).
Proof. destruct p; cbn; destruct (Nat.eqb _ _); (apply sbv_val || apply sbv_refl). Qed.
Lemma set_nested a v p : nested p -> nested (set_at a v p).
Proof.
  induction p as [c|c p1 IH1 p2 IH2]; cbn; auto. intros (S1 & S2 & N1 & N2).
  destruct (set_head a v p1) as (_ & B1 & _), (set_head a v p2) as (_ & B2 & _). rewrite B1, B2.
  destruct (Nat.eqb _ _); cbn; auto.
Qed.
(** reset *)
Lemma reset_cells a v p c : List.In c (cells (reset_at a v p)) -> exists d, List.In d (cells p) /\ same_but_val c d.
Proof.
  induction p as [e|e p1 IH1 p2 IH2]; cbn.
  - intros [<-|[]]. exists e. split; auto. destruct (Nat.eqb _ _); [apply sbv_val|apply sbv_refl].
  - destruct (Nat.eqb _ _); cbn; intros [<-|H]; try (exists e; split; auto; (apply sbv_val || apply sbv_refl)); [destruct H|].
    apply in_app_or in H. destruct H as [H|H];
      [destruct (IH1 H) as (d & D & E)|destruct (IH2 H) as (d & D & E)]; exists d; split; auto; right; apply in_or_app; auto.
Qed.
Lemma reset_head a v p : same_but_val (p_cell (reset_at a v p)) (p_cell p).
Proof. destruct p; cbn; destruct (Nat.eqb _ _); (apply sbv_val || apply sbv_refl). Qed.
Lemma reset_in a v p x : List.In x (addrs (reset_at a v p)) -> List.In x (addrs p).
Proof. unfold addrs. intros H. apply in_map_iff in H. destruct H as (c & <- & H). apply reset_cells in H. destruct H as (d & D & (-> & _)). apply List.in_map; auto. Qed.
Lemma reset_nested a v p : nested p -> nested (reset_at a v p).
Proof.
  induction p as [c|c p1 IH1 p2 IH2]; cbn; auto. intros (S1 & S2 & N1 & N2). destruct (Nat.eqb _ _); cbn; auto.
  destruct (reset_head a v p1) as (_ & B1 & _), (reset_head a v p2) as (_ & B2 & _). rewrite B1, B2. auto.
Qed.
Lemma reset_nodup a v p : NoDup (addrs p) -> NoDup (addrs (reset_at a v p)).
Proof.
  induction p as [c|c p1 IH1 p2 IH2]; cbn; intros H; [destruct (Nat.eqb _ _); auto|].
  unfold addrs in H. cbn in H. rewrite map_app in H. inversion H as [|? ? A1 A2]; subst.
  destruct (Nat.eqb _ _); [repeat constructor; intros []|]. unfold addrs. cbn. rewrite map_app. constructor.
  - intros K. apply A1. apply in_app_or in K. apply in_or_app. destruct K as [K|K]; [left|right]; eapply reset_in; eauto.
  - apply NoDup_app_i; [apply IH1; eapply NoDup_app_l; eauto|apply IH2; eapply NoDup_app_r; eauto|].
    intros x X1 X2. eapply NoDup_app_disj; [eauto|eapply reset_in; eauto|eapply reset_in; eauto].
Qed.

Theorem C42_built : forall bis os a x v p n, bis_ok bis -> Forall wf x -> length x = 2%nat ->
  prun bis os (new_paving a x v, S a) = Some (p, n) -> paving_ok p /\ c_addr (p_cell p) = a /\ forall c, List.In c (cells p) -> (c_addr c < n)%nat.
Proof.
  intros bis os a x v p n HB W L E.
  assert (Main : forall os p n q m, part_ok p n -> c_addr (p_cell p) = a -> (forall c, List.In c (cells p) -> c_root c = a) ->
    prun bis os (p, n) = Some (q, m) -> part_ok q m /\ c_addr (p_cell q) = a /\ (forall c, List.In c (cells q) -> c_root c = a)).
  { clear - HB. intros os. induction os as [|o os IH]; intros p n q m P A Rt E; cbn in E; [injection E; intros <- <-; auto|].
    destruct (pstep bis o (p, n)) as [[p1 n1]|] eqn:Eo; [|discriminate]. destruct o as [k|k u|k u]; cbn in Eo.
    - destruct (bisect_at_ok bis HB p n k p1 n1 P Eo) as (Q & _ & (Q1 & _) & Qc & _).
      apply (IH p1 n1); auto; [congruence|]. intros c Hc. destruct (Qc c Hc) as (_ & d & D & ->). auto.
    - injection Eo; intros <- <-. apply (IH (set_at k u p) n); auto.
      + destruct P as [PA PN PE PB]. constructor.
        * rewrite set_addrs; auto.
        * intros c Hc. apply set_cells in Hc. destruct Hc as (d & D & (-> & _)). auto.
        * apply set_nested; auto.
        * intros c Hc. apply set_cells in Hc. destruct Hc as (d & D & (_ & -> & _)). auto.
      + destruct (set_head k u p) as (-> & _). auto.
      + intros c Hc. apply set_cells in Hc. destruct Hc as (d & D & (_ & _ & ->)). auto.
    - injection Eo; intros <- <-. apply (IH (reset_at k u p) n); auto.
      + destruct P as [PA PN PE PB]. constructor.
        * apply reset_nodup; auto.
        * intros c Hc. apply reset_cells in Hc. destruct Hc as (d & D & (-> & _)). auto.
        * apply reset_nested; auto.
        * intros c Hc. apply reset_cells in Hc. destruct Hc as (d & D & (_ & -> & _)). auto.
      + destruct (reset_head k u p) as (-> & _). auto.
      + intros c Hc. apply reset_cells in Hc. destruct Hc as (d & D & (_ & _ & ->)). auto. }
  destruct (Main os (new_paving a x v) (S a) p n) as (P & A & Rt); auto.
  - constructor; cbn; auto.
    + repeat constructor; intros [].
    + intros c [<-|[]]. cbn. lia.
    + intros c [<-|[]]. cbn. auto.
  - intros c [<-|[]]. auto.
  - destruct P as [PA PN PE PB]. split; [constructor; auto|auto]. intros c Hc. rewrite A. auto.
Qed.
