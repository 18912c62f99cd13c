(** * SepProj (C88, C89, C90) *)

From Coq Require Import Reals Lra Lia Bool List Arith Classical_Prop.
Import ListNotations.
From Verif Require Import Itv PropsDyn2 Tube TubeFacts Static PropsStatic Sivia PropsSivia PropsSiviaTerm Concrete PropsSiviaEx
  Paving PropsPaving3 Separators PropsSep PropsSep2 SepProj.
Open Scope R_scope.

(** ** Specification *)
(** a box of IBEX of dimension [n] *)
Definition good (n : nat) (b : box) : Prop := length b = n /\ Forall wf b /\ normal b.
(** What is expected of the separator of the set [Z] of the points (x,y), on the boxes that are not empty: it only removes
    points of [Z] from x_in, points out of [Z] from x_out *)
Record zsep (N : nat) (Z : list R -> Prop) (sep : sep_t) : Prop := {
  z_in : forall z p, good N z -> inb p z -> ~ Z p -> inb p (fst (sep z z));
  z_out : forall z p, good N z -> inb p z -> Z p -> inb p (snd (sep z z));
  z_good : forall z, good N z -> b_is_empty z = false -> good N (fst (sep z z)) /\ good N (snd (sep z z));
  z_sub : forall z, good N z -> b_is_empty z = false -> Forall2 sub (fst (sep z z)) z /\ Forall2 sub (snd (sep z z)) z }.
(** What is expected of IntervalVector::diff: boxes of [x0] that cover the points of [x0] out of [x] *)
Definition pdiff (n : nat) (diff : box -> box -> list box) : Prop := forall x0 x, good n x0 -> good n x -> (forall p, inb p x -> inb p x0) ->
  Forall (fun d => good n d /\ Forall2 sub d x0) (diff x0 x) /\
  (forall p, inb p x0 -> ~ inb p x -> exists d, List.In d (diff x0 x) /\ inb p d).
(** What is expected of IntervalVector::mid: a point of the box *)
Definition pmid (m : nat) (mid : box -> list R) : Prop := forall y, good m y -> b_is_empty y = false -> inb (mid y) y.
(** What is expected of the bisector *)
Definition pbis (m : nat) (bis : box -> option (box * box)) : Prop := forall y y1 y2, good m y -> b_is_empty y = false -> bis y = Some (y1, y2) ->
  (good m y1 /\ b_is_empty y1 = false /\ Forall2 sub y1 y) /\ (good m y2 /\ b_is_empty y2 = false /\ Forall2 sub y2 y) /\
  (forall q, inb q y -> inb q y1 \/ inb q y2).
(** LargestFirst with the smallest width 1e-10*prec (codac_SepProj.cpp 26) raises no exception on larger boxes *)
Definition pbis_min (prec : R) (bis : box -> option (box * box)) : Prop := forall y, (forall d, max_diam y = Some d -> prec / 10 ^ 10 < d) -> bis y <> None.
(** the projection: the points of x for which some y of [y0] gives a point of [Z] *)
Definition proj_on (Z : list R -> Prop) (y0 : box) (p : list R) : Prop := exists q, inb q y0 /\ Z (p ++ q).

(** ** Facts about boxes *)
Lemma b_inter_normal a b : normal (b_inter a b).
Proof.
  intros E. unfold b_inter in *. destruct (b_is_empty a) eqn:Ea; [congruence|].
  destruct (b_is_empty b); [revert E; apply set_empty_normal|]. destruct (existsb is_empty (map2 inter a b)) eqn:Ex; [revert E; apply set_empty_normal|].
  intros H. assert (existsb is_empty (map2 inter a b) = true) by (apply existsb_exists; exists Emp; auto). congruence.
Qed.
Lemma b_inter_len a b : length a = length b -> length (b_inter a b) = length a.
Proof. intros L. apply (F2_len sub). apply b_inter_sub. auto. Qed.
Lemma good_inter n a b : good n a -> good n b -> good n (b_inter a b).
Proof. intros (A & B & C) (D & E & F). split; [rewrite b_inter_len; congruence|]. split; [apply b_inter_wf; auto|apply b_inter_normal]. Qed.
Lemma inter_pts n a b p : good n a -> good n b -> (inb p (b_inter a b) <-> inb p a /\ inb p b).
Proof. intros (A & _) (B & _). split; [apply inb_inter; congruence|]. intros [H K]. apply b_inter_in; auto. Qed.
Lemma good_empty n a : length a = n -> good n (b_set_empty a).
Proof. intros L. split; [unfold b_set_empty; rewrite map_length; auto|]. split; [|apply set_empty_normal]. unfold b_set_empty. apply Forall_forall. intros i H. apply in_map_iff in H. destruct H as (_ & <- & _). exact I. Qed.
Lemma b_hull_normal a b : normal a -> normal b -> normal (b_hull a b).
Proof.
  intros A B. unfold b_hull. destruct (b_is_empty b) eqn:Eb; auto. destruct (b_is_empty a) eqn:Ea; auto. intros _.
  specialize (A Ea). specialize (B Eb). clear Ea Eb. revert b B. induction a as [|i a IH]; intros [|j b] B; cbn; auto. intros [H|H].
  - destruct i as [|l h]; [apply A; left; auto|]. destruct j as [|l' h']; [apply B; left; auto|]. cbn in H. discriminate.
  - revert H. apply IH; intros K; [apply A|apply B]; right; auto.
Qed.
Lemma good_hull n a b : good n a -> good n b -> good n (b_hull a b).
Proof. intros (A & B & C) (D & E & F). split; [rewrite b_hull_len; congruence|]. split; [apply b_hull_wf; auto|apply b_hull_normal; auto]. Qed.
Lemma hull_pts n a b p : good n a -> good n b -> inb p a \/ inb p b -> inb p (b_hull a b).
Proof. intros (A & _) (B & _) [H|H]; [apply b_hull_in_l|apply b_hull_in_r]; auto; congruence. Qed.
Lemma incl_sub : forall a z : box, Forall wf a -> ~ List.In Emp a -> length a = length z -> (forall p, inb p a -> inb p z) -> Forall2 sub a z.
Proof.
  induction a as [|i a IH]; intros [|j z] W N L H; try discriminate L; constructor; inversion W; subst.
  - destruct (normal_point a) as (p & Hp); auto; [intros K; apply N; right; auto|]. intros v Hv. assert (K : inb (v :: p) (j :: z)) by (apply H; constructor; auto). inversion K; auto.
  - destruct (normal_point [i]) as (p & Hp); [auto|intros [->|[]]; apply N; left; auto|]. inversion Hp as [|v ? ? ? Hv Hq]; subst. inversion Hq; subst.
    apply IH; auto; [intros K; apply N; right; auto|]. intros p Hp'. assert (K : inb (v :: p) (j :: z)) by (apply H; constructor; auto). inversion K; auto.
Qed.
Lemma hull_incl n a b z : good n a -> good n b -> length z = n -> (forall p, inb p a -> inb p z) -> (forall p, inb p b -> inb p z) -> forall p, inb p (b_hull a b) -> inb p z.
Proof.
  intros (A1 & A2 & A3) (B1 & B2 & B3) L HA HB p Hp. destruct (b_is_empty b) eqn:Eb; [unfold b_hull in Hp; rewrite Eb in Hp; auto|].
  destruct (b_is_empty a) eqn:Ea; [unfold b_hull in Hp; rewrite Ea, Eb in Hp; auto|].
  eapply inb_sub; [exact Hp|]. apply b_hull_sub; auto; apply incl_sub; auto; congruence.
Qed.
Lemma hull_all_spec n l : forall x, good n x -> Forall (good n) l -> good n (hull_all x l) /\
  (forall p, inb p x \/ (exists d, List.In d l /\ inb p d) -> inb p (hull_all x l)) /\
  (forall z, length z = n -> (forall p, inb p x -> inb p z) -> (forall d, List.In d l -> forall p, inb p d -> inb p z) -> forall p, inb p (hull_all x l) -> inb p z).
Proof.
  unfold hull_all. induction l as [|d l IH]; intros x G F; cbn [fold_left].
  - refine (conj G (conj _ _)); auto. intros p [H|(d & [] & _)]; auto.
  - inversion F as [|? ? Gd F']; subst. destruct (IH (b_hull x d)) as (A & B & C); auto; [apply good_hull; auto|]. refine (conj A (conj _ _)).
    + intros p [H|(e & [->|H] & K)]; apply B; [left; apply (hull_pts n); auto|left; apply (hull_pts n); auto|right; eauto].
    + intros z L H K. apply C; auto; [|intros e He; apply K; right; auto]. apply (hull_incl n); auto. apply K. left. auto.
Qed.
Lemma good_point n x : good n x -> b_is_empty x = false -> exists p, inb p x.
Proof. intros (_ & W & N) E. apply normal_point; auto. Qed.
Lemma inb_len p x : inb p x -> length p = length x.
Proof. apply F2_len. Qed.
Lemma itv_strict i j : wf i -> wf j -> sub i j -> i <> j -> exists v, In v j /\ ~ In v i.
Proof.
  intros Wi Wj S N. apply NNPP. intros H. apply N, sub_antisym; auto. intros v Hv. apply NNPP. intros K. apply H. eauto.
Qed.
Lemma box_strict : forall a y : box, Forall wf a -> Forall wf y -> ~ List.In Emp y -> Forall2 sub a y -> a <> y -> exists q, inb q y /\ ~ inb q a.
Proof.
  intros a y Wa Wy N S. induction S as [|i j a y Si S IH]; intros NE; [congruence|]. inversion Wa; inversion Wy; subst.
  destruct (normal_point (j :: y)) as (p & Hp); auto. inversion Hp as [|v ? p' ? Hv Hp']; subst.
  destruct (classic (i = j)) as [->|D].
  - destruct IH as (q & Q1 & Q2); auto; [intros K; apply N; right; auto|congruence|]. exists (v :: q). split; [constructor; auto|]. intros K. inversion K; subst. auto.
  - destruct (itv_strict i j) as (u & U1 & U2); auto. exists (u :: p'). split; [constructor; auto|]. intros K. inversion K; subst. auto.
Qed.
Lemma app_cut n (p q : list R) : length p = n -> firstn n (p ++ q) = p /\ skipn n (p ++ q) = q.
Proof. intros <-. split; [rewrite firstn_app, Nat.sub_diag, firstn_all; cbn; apply app_nil_r|rewrite skipn_app, Nat.sub_diag, skipn_all; reflexivity]. Qed.
Lemma app_cutb n (p q : box) : length p = n -> firstn n (p ++ q) = p /\ skipn n (p ++ q) = q.
Proof. intros <-. split; [rewrite firstn_app, Nat.sub_diag, firstn_all; cbn; apply app_nil_r|rewrite skipn_app, Nat.sub_diag, skipn_all; reflexivity]. Qed.
Lemma good_app n m x y : good n x -> good m y -> b_is_empty x = false -> b_is_empty y = false -> good (n + m) (x ++ y) /\ b_is_empty (x ++ y) = false.
Proof.
  intros (A & B & C) (D & E & F) Ex Ey. split.
  - split; [rewrite app_length; congruence|]. split; [apply Forall_app; auto|]. intros _ H. apply in_app_or in H. destruct H; [apply (C Ex)|apply (F Ey)]; auto.
  - destruct x; cbn in *; auto.
Qed.
Lemma good_cut n m z : good (n + m) z -> b_is_empty z = false -> good n (firstn n z) /\ good m (skipn n z) /\ ~ List.In Emp z.
Proof.
  intros (A & B & C) E. specialize (C E). refine (conj _ (conj _ C)).
  - split; [rewrite firstn_length; lia|]. split; [apply Forall_forall; intros i H; rewrite Forall_forall in B; apply B; rewrite <- (firstn_skipn n z); apply in_or_app; auto|].
    intros _ H. apply C. rewrite <- (firstn_skipn n z). apply in_or_app; auto.
  - split; [rewrite skipn_length; lia|]. split; [apply Forall_forall; intros i H; rewrite Forall_forall in B; apply B; rewrite <- (firstn_skipn n z); apply in_or_app; auto|].
    intros _ H. apply C. rewrite <- (firstn_skipn n z). apply in_or_app; auto.
Qed.
Lemma box_eqb_refl : forall a, box_eqb a a = true.
Proof. induction a as [|i a IH]; cbn; auto. rewrite itv_eqb_refl. auto. Qed.
Lemma empty_pts x : b_is_empty x = true -> forall p, ~ inb p x.
Proof. intros E p H. apply inb_empty in H. congruence. Qed.
Lemma not_empty_pts n x : good n x -> (forall p, ~ inb p x) -> b_is_empty x = true.
Proof. intros G H. destruct (b_is_empty x) eqn:E; auto. destruct (good_point n x G E) as (p & Hp). destruct (H p Hp). Qed.

Lemma set_empty_sub2 : forall X x : box, length X = length x -> Forall2 sub (b_set_empty X) x.
Proof. induction X as [|i X IH]; intros [|j x] L; try discriminate L; constructor; [intros v []|]. apply IH. cbn in L. lia. Qed.
Lemma set_empty_empty n X : (0 < n)%nat -> length X = n -> b_is_empty (b_set_empty X) = true.
Proof. destruct X; cbn; auto. lia. Qed.

Section Proj.
  Variables (n m : nat) (Z : list R -> Prop) (sep : sep_t) (diff : box -> box -> list box) (mid : box -> list R).
  Hypothesis Hn : (0 < n)%nat.
  Hypothesis HZ : zsep (n + m) Z sep.
  Hypothesis HD : pdiff n diff.
  Hypothesis HM : pmid m mid.

  (** ** SepProj::process *)
  (** the flag [f] becomes [f'] by a contraction of [X] to [a] *)
  Definition flag_step (X a : box) (f f' : option (list box)) : Prop :=
    (f' = None -> f = None /\ forall p, inb p X -> inb p a) /\
    (forall li, f' = Some li -> f = Some li \/ (f = None /\ li = diff (b_inter X X) a)).
  Lemma flag_step_refl X f : flag_step X X f f.
  Proof. split; auto. Qed.
  Lemma flag_step_set X a f : (forall p, inb p (b_inter X X) <-> inb p X) -> flag_step X a f (set_flag diff f a (b_inter X X)).
  Proof.
    intros XX. destruct f as [l|]; cbn; [split; auto; discriminate|]. destruct (box_eqb a _) eqn:E; split; try discriminate.
    - apply box_eqb_eq in E. intros _. split; auto. intros p Hp. rewrite E. apply XX. auto.
    - intros li K. injection K as <-. auto.
  Qed.
  Lemma set_flag_empty f a x : b_is_empty a = true -> b_is_empty x = false -> set_flag diff f a x <> None.
  Proof. intros A B. destruct f; cbn; [discriminate|]. destruct (box_eqb a x) eqn:E; [|discriminate]. apply box_eqb_eq in E. congruence. Qed.
  (** the separator does not contract x_in *)
  Definition outer : Prop := forall z, good (n + m) z -> fst (sep z z) = z.
  Record process_res (X y : box) (f : flags) (up : bool) (a b : box) (f' : flags) (stop : bool) : Prop := {
    r_a : good n a /\ Forall2 sub a (b_inter X X);
    r_b : good n b /\ Forall2 sub b (b_inter X X);
    r_in : forall p, inb p X -> ~ inb p a -> exists q, inb q y /\ Z (p ++ q);
    r_out : forall p q, inb p X -> inb q y -> Z (p ++ q) -> inb p b;
    r_cin : flag_step X a (f_cin f) (f_cin f');
    r_cout : if up then f_cout f' = f_cout f else flag_step X b (f_cout f) (f_cout f');
    r_stop : stop = false -> b_is_empty a = false /\ b_is_empty b = false;
    r_ea : b_is_empty X = false -> b_is_empty a = true -> f_cin f' <> None;
    r_eb : up = false -> b_is_empty X = false -> b_is_empty b = true -> f_cout f' <> None;
    r_full : outer -> a = X /\ f_cin f' = f_cin f }.
  Lemma inter_self X : good n X -> b_inter X X = X.
  Proof.
    intros G. assert (GX : good n (b_inter X X)) by (apply good_inter; auto).
    unfold b_inter. destruct (b_is_empty X) eqn:E; auto. destruct G as (_ & W & N). specialize (N E).
    assert (Q : map2 inter X X = X). { clear - W. induction W as [|i X Wi W IH]; cbn; auto. rewrite IH, inter_sub_eq; auto. intros v; auto. }
    rewrite Q. destruct (existsb is_empty X) eqn:EX; auto. apply existsb_exists in EX. destruct EX as ([|] & H1 & H2); [destruct (N H1)|discriminate].
  Qed.
  Lemma flag_step_self X a f : good n X -> flag_step X a f (set_flag diff f a X).
  Proof. intros G. assert (K := flag_step_set X a f). rewrite (inter_self X G) in K. apply K. tauto. Qed.
  Lemma process_spec X y f up a b f' stop : good n X -> good m y -> b_is_empty y = false ->
    sp_process true diff sep X X y f up = Some (a, b, f', stop) -> process_res X y f up a b f' stop.
  Proof.
    intros GX Gy Ey H. unfold sp_process in H. rewrite box_eqb_refl in H. cbn [andb negb] in H.
    assert (XI : b_inter X X = X) by (apply inter_self; auto). rewrite XI in H.
    destruct (b_is_empty X) eqn:EX.
    - injection H as <- <- <- <-. assert (NX := empty_pts X EX). constructor; rewrite ?XI; try congruence; auto using F2_sub_refl, flag_step_refl; try (intros p Hp; destruct (NX p Hp)).
      destruct up; auto using flag_step_refl.
    - destruct (good_app n m X y) as (Gz & Ez); auto. set (z := X ++ y) in *.
      destruct (z_good _ _ _ HZ z) as (G1 & G2); auto. destruct (z_sub _ _ _ HZ z) as (S1 & S2); auto.
      assert (K1 : forall p, inb p z -> ~ Z p -> inb p (fst (sep z z))) by (intros p Hp; apply (z_in _ _ _ HZ); auto).
      assert (K2 : forall p, inb p z -> Z p -> inb p (snd (sep z z))) by (intros p Hp; apply (z_out _ _ _ HZ); auto).
      assert (K3 : outer -> fst (sep z z) = z) by (intros K; apply K; auto).
      destruct (sep z z) as (r1 & r2). cbn [fst snd] in *.
      destruct (negb (box_eqb (b_hull r1 r2) z)); [discriminate|]. destruct (b_is_empty r1 && b_is_empty r2) eqn:EE; [discriminate|].
      assert (LX : length X = n) by apply GX.
      assert (C1 : firstn n z = X /\ skipn n z = y) by (apply app_cutb; auto). rewrite LX in H.
      assert (FX : flag_step X (b_set_empty X) (f_cin f) (set_flag diff (f_cin f) (b_set_empty X) X)).
      { apply flag_step_self; auto. }
      assert (Ge : good n (b_set_empty X)) by (apply good_empty; auto).
      assert (Ee : b_is_empty (b_set_empty X) = true) by (apply (set_empty_empty n); auto).
      assert (Se : Forall2 sub (b_set_empty X) X) by (apply set_empty_sub2; auto).
      assert (IB : forall p q, inb p X -> inb q y -> inb (p ++ q) z) by (intros; apply inb_app; auto).
      destruct (b_is_empty r1 || negb (box_eqb y (skipn n r1))) eqn:E1.
      + injection H as <- <- <- <-.
        assert (Q : exists q, inb q y /\ forall p, inb p X -> ~ inb (p ++ q) r1).
        { destruct (b_is_empty r1) eqn:E2.
          - destruct (good_point m y Gy Ey) as (q & Hq). exists q. split; auto. intros p _. apply empty_pts; auto.
          - cbn in E1. apply negb_true_iff in E1. destruct (good_cut n m r1 G1 E2) as (_ & G3 & _).
            destruct (box_strict (skipn n r1) y) as (q & Q1 & Q2); [apply G3|apply Gy|apply Gy; auto| | |].
            + rewrite <- (proj2 C1). apply F2_skipn. auto.
            + intros E. rewrite E, box_eqb_refl in E1. discriminate.
            + exists q. split; auto. intros p Hp K. apply Q2. apply inb_firstn with (n := n) in K. rewrite !(proj2 (app_cut n p q (eq_trans (inb_len p X Hp) LX))) in K. tauto. }
        destruct Q as (q & Q1 & Q2).
        constructor; cbn [f_cin f_cout]; rewrite ?XI; auto using F2_sub_refl; try discriminate.
        * intros p Hp _. exists q. split; auto. apply NNPP. intros NZ. apply (Q2 p Hp), K1; auto.
        * destruct up; auto using flag_step_refl.
        * intros _ _. apply set_flag_empty; auto.
        * intros _ _. congruence.
        * intros K. exfalso. rewrite (K3 K), Ez, (proj2 C1), box_eqb_refl in E1. discriminate.
      + apply orb_false_iff in E1. destruct E1 as (E1 & E2). apply negb_false_iff, box_eqb_eq in E2.
        destruct (good_cut n m r1 G1 E1) as (Ga & _ & NE1).
        assert (Sa : Forall2 sub (firstn n r1) X) by (rewrite <- (proj1 C1); apply F2_firstn; auto).
        set (b0 := if b_is_empty r2 then b_set_empty X else firstn n r2) in *.
        assert (Gb : good n b0 /\ Forall2 sub b0 X).
        { unfold b0. destruct (b_is_empty r2) eqn:E3; auto. split; [apply (good_cut n m r2 G2 E3)|rewrite <- (proj1 C1); apply F2_firstn; auto]. }
        assert (ES : forall w : box, good (n + m) w -> b_is_empty w = false -> b_is_empty (firstn n w) = false).
        { intros [|i w] _; destruct n; auto. }
        assert (EB : b_is_empty b0 = b_is_empty r2).
        { unfold b0. destruct (b_is_empty r2) eqn:E3; auto. }
        injection H as <- <- <- <-.
        constructor; cbn [f_cin f_cout]; rewrite ?XI; auto.
        * intros p Hp N. destruct (good_point m y Gy Ey) as (q & Hq). exists q. split; auto. apply NNPP. intros NZ. apply N.
          assert (K := K1 _ (IB p q Hp Hq) NZ). apply inb_firstn with (n := n) in K. rewrite !(proj1 (app_cut n p q (eq_trans (inb_len p X Hp) LX))) in K. tauto.
        * intros p q Hp Hq HZp. assert (K := K2 _ (IB p q Hp Hq) HZp). unfold b0. rewrite (inb_empty _ _ K).
          apply inb_firstn with (n := n) in K. rewrite !(proj1 (app_cut n p q (eq_trans (inb_len p X Hp) LX))) in K. tauto.
        * destruct up; cbn [f_cin]; apply flag_step_self; auto.
        * destruct up; cbn [f_cout]; auto. apply flag_step_self; auto.
        * rewrite EB. split; auto.
        * intros _ K. rewrite ES in K; auto. discriminate.
        * intros -> _ K. cbn [f_cout]. apply set_flag_empty; auto.
        * intros K. rewrite (K3 K), (proj1 C1). split; auto. destruct up; cbn [f_cin]; destruct (f_cin f); cbn; auto; rewrite box_eqb_refl; auto.
  Qed.

  (** ** SepProj::fixpoint *)
  Lemma sub_pts x y p : Forall2 sub x y -> inb p x -> inb p y.
  Proof. intros S H. eapply inb_sub; eauto. Qed.
  Lemma impact_spec xi xo : good n xi -> good n xo -> let x0 := b_hull xi xo in let f := sp_impact diff xi xo in
    ((f_cin f = None -> forall p, inb p x0 -> inb p xi) /\ (forall li, f_cin f = Some li -> li = diff x0 xi)) /\
    ((f_cout f = None -> forall p, inb p x0 -> inb p xo) /\ (forall lo, f_cout f = Some lo -> lo = diff x0 xo)).
  Proof.
    intros Gi Go x0 f. subst x0 f. unfold sp_impact. destruct (box_eqb xi xo) eqn:E; cbn [f_cin f_cout].
    - apply box_eqb_eq in E. subst xo. split; split; try (intros; discriminate); intros _ p; apply sub_pts, b_hull_sub; auto using F2_sub_refl; apply Gi.
    - cbv zeta. unfold set_flag. cbn [f_cin f_cout]. split; split.
      + destruct (box_eqb xi (b_hull xi xo)) eqn:E1; [|intros K; discriminate K]. apply box_eqb_eq in E1. rewrite <- E1. auto.
      + intros li. destruct (box_eqb xi (b_hull xi xo)); [discriminate|]. intros K. injection K as <-. auto.
      + destruct (box_eqb xo (b_hull xi xo)) eqn:E1; [|intros K; discriminate K]. apply box_eqb_eq in E1. rewrite <- E1. auto.
      + intros li. destruct (box_eqb xo (b_hull xi xo)); [discriminate|]. intros K. injection K as <-. auto.
  Qed.
  Lemma map_pt_in q l : inb q (map pt l) <-> q = l.
  Proof.
    split; revert q; induction l as [|v l IH]; intros q H; cbn in *.
    - inversion H; auto.
    - inversion H; subst. f_equal; auto. apply In_pt; auto.
    - subst. constructor.
    - subst. constructor; [apply In_pt; auto|]. apply IH; auto.
  Qed.
  Lemma good_map_pt l : length l = m -> good m (map pt l) /\ (b_is_empty (map pt l) = false).
  Proof.
    intros L. split.
    - split; [rewrite map_length; auto|]. split; [apply Forall_forall|intros _]; intros; [|intros H]; apply in_map_iff in H; destruct H as (v & E & _); [subst; cbn; lra|discriminate].
    - destruct l; auto.
  Qed.
  (** what the two calls of process do on [X] *)
  Record turn_res (X y : box) (f : flags) (a b : box) (f' : flags) : Prop := {
    t_a : good n a /\ Forall2 sub a X;
    t_b : good n b /\ Forall2 sub b X;
    t_in : forall p, inb p X -> ~ inb p a -> exists q, inb q y /\ Z (p ++ q);
    t_out : forall p q, inb p X -> inb q y -> Z (p ++ q) -> inb p b;
    t_cin : (f_cin f' = None -> f_cin f = None /\ forall p, inb p X -> inb p a) /\
            (forall li, f_cin f' = Some li -> f_cin f = Some li \/ (f_cin f = None /\ exists c, good n c /\ Forall2 sub c X /\ li = diff X c /\ forall p, inb p a -> inb p c));
    t_cout : (f_cout f' = None -> f_cout f = None /\ forall p, inb p X -> inb p b) /\
             (forall lo, f_cout f' = Some lo -> f_cout f = Some lo \/ (f_cout f = None /\ lo = diff X b));
    t_ea : b_is_empty X = false -> b_is_empty a = true -> f_cin f' <> None;
    t_eb : b_is_empty X = false -> b_is_empty b = true -> f_cout f' <> None;
    t_full : outer -> a = X /\ f_cin f' = f_cin f }.
  Lemma fixpoint_turn xi xo y a' b' : good n xi -> good n xo -> good m y -> b_is_empty y = false ->
    sp_fixpoint true diff mid sep xi xo y = Some (a', b') ->
    exists a b f', turn_res (b_inter xi xo) y (sp_impact diff xi xo) a b f' /\
      b_inter xi xo = b_inter xo (b_inter xi xo) /\ sp_reconstruct true a b (b_hull xi xo) f' = Some (a', b') /\ b_hull a' b' = b_hull xi xo.
  Proof.
    intros Gi Go Gy Ey H. unfold sp_fixpoint in H. set (X := b_inter xi xo) in *. set (f := sp_impact diff xi xo) in *. set (x0 := b_hull xi xo) in *.
    assert (GX : good n X) by (apply good_inter; auto).
    assert (XI : b_inter X X = X) by (apply inter_self; auto).
    destruct (box_eqb X (b_inter xo X)) eqn:EQ; [|unfold sp_process in H; rewrite EQ in H; discriminate].
    apply box_eqb_eq in EQ. rewrite <- EQ in H.
    destruct (sp_process true diff sep X X y f false) as [[[[a b] f1] stop]|] eqn:P1; [|discriminate].
    apply process_spec in P1; auto. destruct P1 as [(Ga & Sa) (Gb & Sb) RI RO RC RD RS RE RF RG]. rewrite XI in *.
    assert (KK : forall a2 f2, turn_res X y f a2 b f2 ->
      match sp_reconstruct true a2 b x0 f2 with Some (a, b) => if true && negb (box_eqb (b_hull a b) x0) then None else Some (a, b) | None => None end = Some (a', b') ->
      exists a b f', turn_res X y f a b f' /\ X = b_inter xo X /\ sp_reconstruct true a b x0 f' = Some (a', b') /\ b_hull a' b' = x0).
    { intros a2 f2 T H2. destruct (sp_reconstruct true a2 b x0 f2) as [[a3 b3]|] eqn:RR; [|discriminate]. cbn [andb] in H2.
      destruct (box_eqb (b_hull a3 b3) x0) eqn:EE; [|discriminate]. injection H2 as <- <-. apply box_eqb_eq in EE. exists a2, b, f2. auto. }
    unfold flag_step in RC, RD. rewrite XI in RC, RD. destruct RC as (RC1 & RC2).
    destruct stop.
    - apply (KK a f1); auto. constructor; auto. split; auto. intros li K. destruct (RC2 li K) as [|(A & B)]; auto. right. split; auto. exists a. auto.
    - destruct (RS eq_refl) as (Ea & Eb).
      destruct (sp_process true diff sep a (b_inter X a) (map pt (mid y)) f1 true) as [[[[a2 b2] f2] stop2]|] eqn:P2; [|discriminate].
      assert (EA : b_inter X a = a).
      { unfold sp_process in P2. destruct (box_eqb a (b_inter X a)) eqn:E2; [|discriminate]. apply box_eqb_eq in E2. auto. }
      rewrite EA in P2. destruct (good_map_pt (mid y)) as (Gm & Em); [rewrite (inb_len _ _ (HM y Gy Ey)); apply Gy|].
      apply process_spec in P2; auto. assert (AI : b_inter a a = a) by (apply inter_self; auto).
      destruct P2 as [(Ga2 & Sa2) _ RI2 _ RC' RD' _ RE2 _ RG2]. rewrite AI in *. unfold flag_step in RC'. rewrite AI in RC'. destruct RC' as (RC3 & RC4).
      apply (KK a2 f2); auto. constructor; auto.
      + split; auto. eapply F2_sub_trans; eauto.
      + intros p Hp N. destruct (classic (inb p a)) as [Ha|Ha]; [|apply RI; auto].
        destruct (RI2 p Ha N) as (q & Q1 & Q2). apply map_pt_in in Q1. subst q. exists (mid y). split; auto.
      + split.
        * intros K. destruct (RC3 K) as (K1 & K2). destruct (RC1 K1) as (K3 & K4). auto.
        * intros li K. destruct (RC4 li K) as [K1|(K1 & K2)].
          -- destruct (RC2 li K1) as [|(A & B)]; auto. right. split; auto. exists a. repeat split; auto; try apply Ga. intros p. apply sub_pts. auto.
          -- destruct (RC1 K1) as (K3 & K4). right. split; auto. exists a2. refine (conj Ga2 (conj _ (conj _ _))); auto; [eapply F2_sub_trans; eauto|].
             subst li. f_equal. destruct Ga as (A1 & A2 & A3), GX as (B1 & B2 & B3).
             apply NNPP. intros NE. destruct (b_is_empty X) eqn:EX; [destruct (good_point n a (conj A1 (conj A2 A3)) Ea) as (p & Hp); apply (sub_pts _ _ _ Sa) in Hp; apply inb_empty in Hp; congruence|].
             destruct (box_strict a X) as (q & Q1 & Q2); auto.
      + rewrite RD'. auto.
      + rewrite RD'. auto.
      + intros K. destruct (RG K), (RG2 K). split; congruence.
  Qed.
  Record fix_res (xi xo y a b : box) : Prop := {
    x_good : good n a /\ good n b;
    x_hull : b_hull a b = b_hull xi xo;
    x_in' : (forall d, List.In d (diff (b_hull xi xo) xi) -> forall p, inb p d -> inb p xo) \/ (forall p, inb p (b_hull xi xo) -> inb p xo) ->
      forall p, inb p xi -> ~ inb p a -> exists q, inb q y /\ Z (p ++ q);
    x_out' : forall p q, inb p xo -> inb q y -> Z (p ++ q) -> inb p b \/ (b_is_empty b = true /\ ~ inb p xi) }.
  Lemma fixpoint_spec xi xo y a' b' : good n xi -> good n xo -> good m y -> b_is_empty y = false ->
    sp_fixpoint true diff mid sep xi xo y = Some (a', b') -> fix_res xi xo y a' b'.
  Proof.
    intros Gi Go Gy Ey H. destruct (fixpoint_turn xi xo y a' b' Gi Go Gy Ey H) as (a & b & f' & T & EX & RR & HH). clear H.
    set (X := b_inter xi xo) in *. set (x0 := b_hull xi xo) in *. destruct (impact_spec xi xo Gi Go) as ((I1 & I2) & (O1 & O2)). fold x0 in I1, I2, O1, O2.
    set (f := sp_impact diff xi xo) in *. clearbody f.
    assert (G0 : good n x0) by (apply good_hull; auto). assert (GX : good n X) by (apply good_inter; auto).
    assert (PX : forall p, inb p X <-> inb p xi /\ inb p xo) by (intros; apply (inter_pts n); auto).
    assert (SXi : Forall2 sub X xi). { apply b_inter_sub. destruct Gi, Go; congruence. }
    assert (SXo : Forall2 sub X xo). { rewrite EX. apply b_inter_sub. destruct GX, Go; congruence. }
    assert (Pi : forall p, inb p xi -> inb p x0) by (intros; apply (hull_pts n); auto).
    assert (Po : forall p, inb p xo -> inb p x0) by (intros; apply (hull_pts n); auto).
    destruct T as [(Ga & Sa) (Gb & Sb) TI TO (C1 & C2) (D1 & D2) TE TF _].
    assert (PaX : forall p, inb p a -> inb p X) by (intros p; apply sub_pts; auto).
    assert (PbX : forall p, inb p b -> inb p X) by (intros p; apply sub_pts; auto).
    (* the boxes given back *)
    assert (LI : forall li, f_cin f' = Some li -> Forall (good n) li /\ (forall p, inb p x0 -> ~ inb p xi -> exists d, List.In d li /\ inb p d) /\
      ((forall d, List.In d (diff x0 xi) -> forall p, inb p d -> inb p xo) -> (forall d, List.In d li -> forall p, inb p d -> inb p xo))).
    { intros li E. destruct (C2 li E) as [E1|(E1 & c & Gc & Sc & -> & _)].
      - apply I2 in E1. subst li. destruct (HD x0 xi G0 Gi Pi) as (A & B). refine (conj _ (conj B _)).
        + eapply Forall_impl; [|exact A]. cbn. tauto.
        + auto.
      - destruct (HD X c GX Gc) as (A & B); [intros p; apply sub_pts; auto|]. refine (conj _ (conj _ _)).
        + eapply Forall_impl; [|exact A]. cbn. tauto.
        + intros p Hp N. destruct N. apply I1; auto.
        + intros _ d Hd p Hp. rewrite Forall_forall in A. apply (sub_pts X); auto. apply (sub_pts d); auto. apply A; auto. }
    assert (LO : forall lo, f_cout f' = Some lo -> Forall (good n) lo /\ (forall p, inb p x0 -> ~ inb p xo -> exists d, List.In d lo /\ inb p d)).
    { intros lo E. destruct (D2 lo E) as [E1|(E1 & ->)].
      - apply O2 in E1. subst lo. destruct (HD x0 xo G0 Go Po) as (A & B). split; auto. eapply Forall_impl; [|exact A]. cbn. tauto.
      - destruct (HD X b GX Gb) as (A & B); [intros p; apply sub_pts; auto|]. split; [eapply Forall_impl; [|exact A]; cbn; tauto|].
        intros p Hp N. destruct N. apply O1; auto. }
    (* what is needed of the result *)
    assert (KI : forall p, inb p xi -> inb p xo -> ~ inb p a -> exists q, inb q y /\ Z (p ++ q)) by (intros p A B; apply TI, PX; auto).
    assert (KO : forall p q, inb p xi -> inb p xo -> inb q y -> Z (p ++ q) -> inb p b) by (intros p q A B; apply TO, PX; auto).
    unfold sp_reconstruct in RR.
    destruct (f_cin f') as [li|] eqn:Ci, (f_cout f') as [lo|] eqn:Co, (b_is_empty a) eqn:Ea, (b_is_empty b) eqn:Eb; try discriminate RR; injection RR as <- <-;
      try (destruct (LI li eq_refl) as (L1 & L2 & L3)); try (destruct (LO lo eq_refl) as (M1 & M2));
      try (destruct (C1 eq_refl) as (C3 & C4); specialize (I1 C3)); try (destruct (D1 eq_refl) as (D3 & D4); specialize (O1 D3));
      try (destruct (hull_all_spec n li b Gb L1) as (H1 & H2 & H3)); try (destruct (hull_all_spec n lo a Ga M1) as (N1 & N2 & N3));
      (constructor; [split; auto|auto| |]).
    all: try (intros _ p Hp N; exfalso; apply N; auto; fail).
    all: try (intros p q Hp Hq HZp; left; auto; fail).
    all: try (intros _ p Hp N; apply KI; auto; fail).
    all: try (intros p q Hp Hq HZp; left; apply KO with (q := q); auto; fail).
    all: try (intros p q Hp Hq HZp; left; apply H2; destruct (classic (inb p xi)); [left; apply KO with (q := q); auto|right; auto]; fail).
    all: try (intros p q Hp Hq HZp; right; split; auto; intros K; apply (empty_pts b Eb p); eapply KO; eauto; fail).
    - intros [K|K] p Hp N; apply KI; auto. assert (P : inb p (b_hull a (hull_all b li))) by (rewrite HH; auto).
      unfold b_hull in P. rewrite Ea in P. destruct (b_is_empty (hull_all b li)); [destruct (empty_pts a Ea p P)|].
      apply (H3 xo); [apply Go|intros r Hr; apply PX, PbX; auto|apply L3; exact K|exact P].
    - intros _ p Hp N. apply KI; auto. apply NNPP. intros K. apply N, N2. right. auto.
  Qed.
  Lemma fixpoint_outer xi xo y a b : outer -> good n xi -> good n xo -> good m y -> b_is_empty y = false -> b_hull xi xo = xi ->
    sp_fixpoint true diff mid sep xi xo y = Some (a, b) -> a = xi.
  Proof.
    intros O Gi Go Gy Ey HX H. destruct (fixpoint_turn xi xo y a b Gi Go Gy Ey H) as (a1 & b1 & f' & T & _ & RR & _). rewrite HX in RR.
    destruct (t_full _ _ _ _ _ _ T O) as (-> & T2).
    assert (E1 : f_cin (sp_impact diff xi xo) = None).
    { unfold sp_impact. destruct (box_eqb xi xo); auto. rewrite HX. cbn. rewrite box_eqb_refl. auto. }
    assert (E2 : f_cout (sp_impact diff xi xo) = None -> xo = xi).
    { unfold sp_impact. destruct (box_eqb xi xo) eqn:E; [apply box_eqb_eq in E; auto|]. rewrite HX. cbn. destruct (box_eqb xo xi) eqn:E2; [apply box_eqb_eq in E2; auto|discriminate]. }
    rewrite E1 in T2. unfold sp_reconstruct in RR. rewrite T2 in RR.
    destruct (f_cout f') as [lo|] eqn:Co, (b_is_empty (b_inter xi xo)), (b_is_empty b1); try discriminate RR; injection RR as <- <-; auto.
    destruct (t_cout _ _ _ _ _ _ T) as (K & _). destruct (K Co) as (K1 & _). rewrite (E2 K1). apply inter_self; auto.
  Qed.

  (** ** SepProj::separate *)
  Variables (bis : box -> option (box * box)) (prec : R) (x0 y0 : box).
  Hypothesis HB : pbis m bis.
  Hypothesis G0 : good n x0.
  Hypothesis Gy0 : good m y0.
  Hypothesis Ey0 : b_is_empty y0 = false.
  (** the pairs of the queue *)
  Definition item_ok (q : box * box) : Prop :=
    good n (fst q) /\ (forall p, inb p (fst q) -> inb p x0) /\ good m (snd q) /\ b_is_empty (snd q) = false /\ (forall p, inb p (snd q) -> inb p y0).
  Definition state_ok (s : sp_state) : Prop :=
    good n (sp_in s) /\ (forall p, inb p (sp_in s) -> inb p x0) /\ (good n (sp_res s) /\ (forall p, inb p (sp_res s) -> inb p x0)) /\ Forall item_ok (sp_queue s) /\
    (forall p, inb p x0 -> ~ inb p (sp_in s) -> proj_on Z y0 p).
  (** the points still to be found in x_out *)
  Definition covered (s : sp_state) (p q : list R) : Prop :=
    inb p (sp_res s) \/ exists xo y, List.In (xo, y) (sp_queue s) /\ inb p xo /\ inb q y.
  (** the turn of the loop that loses points: the fixpoint empties x_out although x_in is not the initial box *)
  Definition loses (xi xo y : box) : Prop :=
    exists xo' a b, sp_complementary true diff xo xi x0 = Some xo' /\ sp_fixpoint true diff mid sep xi xo' y = Some (a, b) /\
      b_is_empty b = true /\ xi <> x0.
  Lemma complementary_spec xo xi xo' : good n xo -> good n xi -> (forall p, inb p xo -> inb p x0) -> (forall p, inb p xi -> inb p x0) ->
    sp_complementary true diff xo xi x0 = Some xo' ->
    good n xo' /\ (forall p, inb p xo -> inb p xo') /\ (forall p, inb p xo' -> inb p x0) /\
    ((forall d, List.In d (diff x0 xi) -> forall p, inb p d -> inb p xo') \/ (forall p, inb p x0 -> inb p xo')).
  Proof.
    intros Go Gi Po Pi H. unfold sp_complementary in H. destruct (box_eqb xo x0) eqn:E.
    - injection H as <-. apply box_eqb_eq in E. subst xo. auto.
    - cbn [andb] in H. destruct (box_eqb _ _) in H; [|discriminate]. injection H as <-.
      destruct (HD x0 xi G0 Gi Pi) as (A & B). destruct (hull_all_spec n (diff x0 xi) xo Go) as (H1 & H2 & H3); [eapply Forall_impl; [|exact A]; cbn; tauto|].
      refine (conj H1 (conj _ (conj _ _))); auto.
      + intros p. apply H3; auto; [apply G0|]. rewrite Forall_forall in A. intros d Hd r. apply sub_pts, A. auto.
      + left. intros d Hd p Hp. apply H2. right. eauto.
  Qed.
  Lemma turn_spec xi res xo y l s : state_ok (mkSP xi res ((xo, y) :: l)) ->
    sp_turn true diff mid bis sep prec x0 xi res xo y l = Some s ->
    state_ok s /\ (0 < prec -> pbis_min prec bis -> ~ loses xi xo y -> forall p q, inb p x0 -> inb q y0 -> Z (p ++ q) ->
      covered (mkSP xi res ((xo, y) :: l)) p q -> covered s p q).
  Proof.
    intros (Gi & Pi & (Gr & Pr) & F & SI) H. cbn [sp_in sp_res sp_queue] in *. inversion F as [|? ? I1 F']; subst. destruct I1 as (Go & Po & Gy & Ey & Py). cbn [fst snd] in *.
    assert (LN : length xo = length res) by (destruct Go, Gr; congruence).
    unfold sp_turn in H. destruct (b_is_subset xo res) eqn:ES.
    { injection H as <-. split; [refine (conj Gi (conj Pi (conj (conj Gr Pr) (conj F' SI))))|].
      intros _ _ _ p q _ _ _ [H|(xo1 & y1 & [K|K] & H1 & H2)]; [left; auto|left|right; exists xo1, y1; auto]. injection K as <- <-. eapply subset_in; eauto. }
    destruct (sp_complementary true diff xo xi x0) as [xo'|] eqn:EC; [|discriminate].
    destruct (complementary_spec xo xi xo' Go Gi Po Pi EC) as (Go' & Co' & Po' & Cov). cbn [andb] in H.
    destruct (box_eqb (b_hull xi xo') x0) eqn:EH; [|discriminate]. cbn [negb] in H. apply box_eqb_eq in EH.
    destruct (sp_fixpoint true diff mid sep xi xo' y) as [[a b]|] eqn:EF; [|discriminate].
    destruct (fixpoint_spec xi xo' y a b Gi Go' Gy Ey EF) as [(Ga & Gb) XH XI XO]. rewrite EH in XH, XI.
    assert (Pa : forall p, inb p a -> inb p x0) by (intros p Hp; rewrite <- XH; apply (hull_pts n); auto).
    assert (Pb : forall p, inb p b -> inb p x0) by (intros p Hp; rewrite <- XH; apply (hull_pts n); auto).
    assert (SA : forall p, inb p x0 -> ~ inb p a -> proj_on Z y0 p).
    { intros p Hp N. destruct (classic (inb p xi)) as [K|K]; [|apply SI; auto]. destruct (XI Cov p K N) as (q & Q1 & Q2). exists q. auto. }
    assert (Gh : good n (b_hull res b)) by (apply good_hull; auto).
    (* a pair (x_out, y) of the queue *)
    assert (OUT : ~ loses xi xo y -> forall p q, inb p x0 -> inb q y0 -> Z (p ++ q) -> covered (mkSP xi res ((xo, y) :: l)) p q ->
      (inb p res \/ exists xo y, List.In (xo, y) l /\ inb p xo /\ inb q y) \/ (inb p b /\ inb q y)).
    { intros NL p q Hp Hq HZp [K|(xo1 & y1 & [K|K] & H1 & H2)]; [left; left; auto| |left; right; exists xo1, y1; auto]. injection K as <- <-.
      destruct (XO p q (Co' p H1) H2 HZp) as [K|(K1 & K2)]; [right; auto|]. exfalso. apply NL. exists xo', a, b. refine (conj EC (conj EF (conj K1 _))). congruence. }
    destruct (b_is_empty b) eqn:Eb.
    { injection H as <-. split; [refine (conj Ga (conj Pa (conj (conj Gr Pr) (conj F' SA))))|]. intros _ _ NL p q Hp Hq HZp K.
      destruct (OUT NL p q Hp Hq HZp K) as [|(K1 & K2)]; auto. destruct (empty_pts b Eb p K1). }
    destruct (box_eqb (b_hull a b) x0); [|discriminate]. cbn [negb] in H.
    destruct (sp_small prec (b_inter a b) y) eqn:SM.
    { injection H as <-. split; [refine (conj Ga (conj Pa (conj (conj Gh _) (conj F' SA))))|].
      - cbn [sp_res]. apply (hull_incl n); auto. apply G0.
      - intros _ _ NL p q Hp Hq HZp K. destruct (OUT NL p q Hp Hq HZp K) as [[K1|K1]|(K1 & K2)]; [left|right; auto|left]; cbn; apply (hull_pts n); auto. }
    rewrite Ey in H. cbn [orb] in H. destruct (b_is_subset b res) eqn:ES2.
    { injection H as <-. split; [refine (conj Ga (conj Pa (conj (conj Gr Pr) (conj F' SA))))|]. intros _ _ NL p q Hp Hq HZp K.
      destruct (OUT NL p q Hp Hq HZp K) as [|(K1 & K2)]; auto. left. cbn. eapply subset_in; eauto. destruct Gb, Gr; congruence. }
    destruct (bis y) as [[y1 y2]|] eqn:EB.
    - destruct (HB y y1 y2 Gy Ey EB) as ((A1 & A2 & A3) & (B1 & B2 & B3) & C). injection H as <-. split.
      + refine (conj Ga (conj Pa (conj (conj Gr Pr) (conj _ SA)))). cbn [sp_queue]. apply Forall_app. split; auto.
        repeat constructor; cbn [fst snd]; auto; try apply Gb; try apply A1; try apply B1; intros r Hr; apply Py; [apply (sub_pts y1)|apply (sub_pts y2)]; auto.
      + intros _ _ NL p q Hp Hq HZp K. destruct (OUT NL p q Hp Hq HZp K) as [[K1|(xo1 & w & K1 & K2)]|(K1 & K2)]; [left; auto| |].
        * right. exists xo1, w. split; auto. cbn. apply in_or_app. auto.
        * right. destruct (C q K2); [exists b, y1|exists b, y2]; split; auto; cbn; apply in_or_app; right; cbn; auto.
    - injection H as <-. split; [refine (conj Ga (conj Pa (conj (conj Gr Pr) (conj F' SA))))|]. intros PP BM. exfalso.
      apply (BM y); auto. intros d Ed. unfold sp_small in SM. apply orb_false_iff in SM. destruct SM as (SM & S5).
      apply orb_false_iff in SM. destruct SM as (SM & _). apply orb_false_iff in SM. destruct SM as (SM & S3).
      destruct (max_diam (b_inter a b)) as [e|] eqn:Ee.
      + cbn in S3. apply Rltb_false in S3. rewrite Ed in S5. cbn in S5. apply Rltb_false in S5.
        assert (prec / 10 ^ 10 < prec / 10) by (apply Rmult_lt_compat_l; auto; apply Rinv_lt_contravar; lra). lra.
      + rewrite Ed in S5. cbn in S5. discriminate.
  Qed.

  Let loop := sp_loop true diff mid bis sep prec x0.
  Let turn := sp_turn true diff mid bis sep prec x0.
  (** the states of a call *)
  Inductive reach (s0 : sp_state) : sp_state -> Prop :=
  | reach_0 : reach s0 s0
  | reach_S s xo y l s' : reach s0 s -> sp_queue s = (xo, y) :: l -> turn (sp_in s) (sp_res s) xo y l = Some s' -> reach s0 s'.
  Definition init : sp_state := mkSP x0 (b_set_empty x0) [(x0, y0)].
  Lemma init_ok : state_ok init.
  Proof.
    refine (conj G0 (conj _ (conj (conj _ _) (conj _ _)))); cbn; auto.
    - apply good_empty, G0.
    - intros p Hp. destruct (empty_pts (b_set_empty x0)) with (p := p); auto. apply (set_empty_empty n); auto. apply G0.
    - constructor; auto. repeat split; cbn; auto; try apply G0; apply Gy0.
    - intros p A B. destruct (B A).
  Qed.
  Lemma reach_ok s : reach init s -> state_ok s.
  Proof.
    induction 1 as [|s xo y l s' _ IH Q T]; [apply init_ok|]. destruct s as [xi res q]. cbn in *. subst q. apply (turn_spec xi res xo y l s'); auto.
  Qed.
  Lemma loop_reach fuel : forall s a b, reach init s -> loop fuel s = SPDone a b -> exists s', reach init s' /\ sp_queue s' = [] /\ sp_in s' = a /\ sp_res s' = b.
  Proof.
    induction fuel as [|fuel IH]; intros s a b HR H; cbn in H; destruct (sp_queue s) as [|[xo y] l] eqn:Q; try discriminate.
    - injection H as <- <-. eauto.
    - injection H as <- <-. eauto.
    - destruct (sp_turn true diff mid bis sep prec x0 (sp_in s) (sp_res s) xo y l) as [s'|] eqn:T; [|discriminate]. apply (IH s' a b); auto. eapply reach_S; eauto.
  Qed.
  Lemma separate_reach fuel a b : sp_separate true diff mid bis sep prec y0 fuel x0 x0 = SPDone a b ->
    exists s, reach init s /\ sp_queue s = [] /\ sp_in s = a /\ sp_res s = b.
  Proof.
    unfold sp_separate. rewrite box_eqb_refl, (inter_self x0 G0). cbn [andb negb]. apply loop_reach. constructor.
  Qed.
  Theorem separate_in fuel a b : sp_separate true diff mid bis sep prec y0 fuel x0 x0 = SPDone a b ->
    (forall p, inb p a -> inb p x0) /\ (forall p, inb p b -> inb p x0) /\ (forall p, inb p x0 -> ~ inb p a -> proj_on Z y0 p).
  Proof.
    intros H. apply separate_reach in H. destruct H as (s & HR & _ & <- & <-). destruct (reach_ok s HR) as (_ & A & (_ & B) & _ & C). auto.
  Qed.
  Theorem separate_out fuel a b : 0 < prec -> pbis_min prec bis ->
    (forall s xo y l, reach init s -> sp_queue s = (xo, y) :: l -> ~ loses (sp_in s) xo y) ->
    sp_separate true diff mid bis sep prec y0 fuel x0 x0 = SPDone a b -> forall p, inb p x0 -> proj_on Z y0 p -> inb p b.
  Proof.
    intros PP BM NL H p Hp (q & Hq & HZp). apply separate_reach in H. destruct H as (s & HR & Q & <- & <-).
    assert (C : covered s p q).
    { clear Q. induction HR as [|s xo y l s' HR IH Q T]; [right; exists x0, y0; cbn; auto|]. specialize (NL s xo y l HR Q). assert (K := reach_ok s HR).
      destruct s as [xi res w]. cbn in *. subst w. destruct (turn_spec xi res xo y l s' K T) as (_ & K2). apply K2; auto. }
    destruct C as [C|(xo & y & C & _)]; auto. rewrite Q in C. destruct C.
  Qed.
  Lemma reach_outer s : outer -> reach init s -> sp_in s = x0.
  Proof.
    intros O. induction 1 as [|s xo y l s' HR IH Q T]; auto. assert (K := reach_ok s HR). destruct s as [xi res w]. cbn in *. subst w xi.
    destruct K as (_ & _ & _ & F & _). inversion F as [|? ? I1 F']; subst. destruct I1 as (Go & Po & Gy & Ey & Py). cbn [fst snd] in *.
    unfold turn, sp_turn in T. destruct (b_is_subset xo res); [injection T as <-; auto|].
    destruct (sp_complementary true diff xo x0 x0) as [xo'|] eqn:EC; [|discriminate].
    destruct (complementary_spec xo x0 xo' Go G0 Po (fun p h => h) EC) as (Go' & _). cbn [andb] in T.
    destruct (box_eqb (b_hull x0 xo') x0) eqn:EH; [|discriminate]. apply box_eqb_eq in EH. cbn [negb] in T.
    destruct (sp_fixpoint true diff mid sep x0 xo' y) as [[a b]|] eqn:EF; [|discriminate].
    apply fixpoint_outer in EF; auto. subst a. destruct (b_is_empty b); [injection T as <-; auto|]. destruct (box_eqb (b_hull x0 b) x0); [|discriminate]. cbn [negb] in T.
    destruct (sp_small _ _ _); [injection T as <-; auto|]. destruct (_ || _); [injection T as <-; auto|]. destruct (bis y) as [[y1 y2]|]; injection T as <-; auto.
  Qed.
End Proj.

(** ** C88: x_in *)
(** With the assertions, SepProj only removes points of the projection from x_in, whatever the sound separator. *)
Theorem C88 : forall n m Z sep diff mid bis prec x0 y0 fuel xi xo, (0 < n)%nat -> zsep (n + m) Z sep -> pdiff n diff -> pmid m mid -> pbis m bis ->
  good n x0 -> good m y0 -> b_is_empty y0 = false ->
  sp_separate true diff mid bis sep prec y0 fuel x0 x0 = SPDone xi xo ->
  (forall p, inb p xi -> inb p x0) /\ (forall p, inb p xo -> inb p x0) /\
  (forall p, inb p x0 -> ~ inb p xi -> exists q, inb q y0 /\ Z (p ++ q)).
Proof. intros n m Z sep diff mid bis prec x0 y0 fuel xi xo Hn HZ HD HM HB G0 Gy Ey H. exact (separate_in n m Z sep diff mid Hn HZ HD HM bis prec x0 y0 HB G0 Gy Ey fuel xi xo H). Qed.

(** ** C89: x_out *)
(** The points of the projection are kept in x_out, provided that no fixpoint empties x_out while x_in is not the initial
    box (see [C89_refuted] for such a call). *)
Theorem C89_partial : forall n m Z sep diff mid bis prec x0 y0 fuel xi xo, (0 < n)%nat -> zsep (n + m) Z sep -> pdiff n diff -> pmid m mid -> pbis m bis ->
  good n x0 -> good m y0 -> b_is_empty y0 = false -> 0 < prec -> pbis_min prec bis ->
  (forall s x_out y l, reach sep diff mid bis prec x0 (init x0 y0) s -> sp_queue s = (x_out, y) :: l -> sp_in s <> x0 ->
    forall x_out' a b, sp_complementary true diff x_out (sp_in s) x0 = Some x_out' ->
      sp_fixpoint true diff mid sep (sp_in s) x_out' y = Some (a, b) -> b_is_empty b = false) ->
  sp_separate true diff mid bis sep prec y0 fuel x0 x0 = SPDone xi xo ->
  forall p q, inb p x0 -> inb q y0 -> Z (p ++ q) -> inb p xo.
Proof.
  intros n m Z sep diff mid bis prec x0 y0 fuel xi xo Hn HZ HD HM HB G0 Gy Ey PP BM NL H p q Hp Hq HZp.
  apply (separate_out n m Z sep diff mid Hn HZ HD HM bis prec x0 y0 HB G0 Gy Ey fuel xi xo PP BM); auto; [|exists q; auto].
  intros s xo1 y l HR Q (xo' & a & b & A & B & C & D). rewrite (NL s xo1 y l HR Q D xo' a b A B) in C. discriminate.
Qed.
(** In particular, with a separator that never contracts x_in (a contractor of the set [Z]). *)
Theorem C89_outer_partial : forall n m Z sep diff mid bis prec x0 y0 fuel xi xo, (0 < n)%nat -> zsep (n + m) Z sep -> pdiff n diff -> pmid m mid -> pbis m bis ->
  good n x0 -> good m y0 -> b_is_empty y0 = false -> 0 < prec -> pbis_min prec bis ->
  (forall z, good (n + m) z -> fst (sep z z) = z) ->
  sp_separate true diff mid bis sep prec y0 fuel x0 x0 = SPDone xi xo ->
  xi = x0 /\ forall p q, inb p x0 -> inb q y0 -> Z (p ++ q) -> inb p xo.
Proof.
  intros n m Z sep diff mid bis prec x0 y0 fuel xi xo Hn HZ HD HM HB G0 Gy Ey PP BM O H. split.
  - destruct (separate_reach n sep diff mid bis prec x0 y0 G0 fuel xi xo H) as (s & HR & _ & <- & _).
    exact (reach_outer n m Z sep diff mid Hn HZ HD HM bis prec x0 y0 HB G0 Gy Ey s O HR).
  - apply (C89_partial n m Z sep diff mid bis prec x0 y0 fuel xi xo); auto. intros s x_out y l HR _ NE.
    destruct NE. exact (reach_outer n m Z sep diff mid Hn HZ HD HM bis prec x0 y0 HB G0 Gy Ey s O HR).
Qed.

(** ** What is expected of the operations of IBEX is satisfied *)
Lemma idiff_good i0 i c : wf i0 -> wf i -> sub i i0 -> i <> Emp -> List.In c (idiff i0 i) -> wf c /\ sub c i0 /\ c <> Emp.
Proof.
  intros W0 W S N H. destruct i as [|l h]; [congruence|]. destruct i0 as [|l0 h0]; [destruct H|]. unfold idiff in H. apply in_app_or in H.
  destruct H as [H|H].
  - destruct l as [a|]; [|destruct H]. destruct (lo_leb (Some a) l0) eqn:E; [destruct H|]. destruct H as [<-|[]].
    assert (Ha : In a (Itv l0 h0)) by (apply S; destruct h as [b|]; cbn in *; lra).
    refine (conj _ (conj _ _)); [destruct l0; cbn in *; auto; lra|intros v; destruct l0, h0; cbn in *; lra|discriminate].
  - destruct h as [b|]; [|destruct H]. destruct (hi_leb h0 (Some b)) eqn:E; [destruct H|]. destruct H as [<-|[]].
    assert (Ha : In b (Itv l0 h0)) by (apply S; destruct l as [a|]; cbn in *; lra).
    refine (conj _ (conj _ _)); [destruct h0; cbn in *; auto; lra|intros v; destruct l0, h0; cbn in *; lra|discriminate].
Qed.
Lemma no_emp : forall x x0 : box, Forall2 sub x x0 -> Forall wf x -> ~ List.In Emp x -> ~ List.In Emp x0.
Proof.
  intros x x0 S W N. destruct (normal_point x W N) as (p & Hp). assert (K := inb_sub _ _ _ Hp S). clear - K. induction K as [|v i p x H K IH]; [auto|]. intros [E|E]; [subst; destruct H|auto].
Qed.
Lemma slabs_good : forall x0 x d, Forall2 sub x x0 -> Forall wf x0 -> Forall wf x -> ~ List.In Emp x -> List.In d (slabs x0 x) ->
  length d = length x0 /\ Forall wf d /\ ~ List.In Emp d /\ Forall2 sub d x0.
Proof.
  intros x0 x d S. revert d. induction S as [|i i0 x x0 Si S IH]; intros d W0 W N H; [destruct H|]. inversion W0; inversion W; subst.
  assert (NX : ~ List.In Emp x0).
  { apply no_emp with x; auto. intros K; apply N; right; auto. }
  cbn [slabs] in H. apply in_app_or in H. destruct H as [H|H]; apply in_map_iff in H.
  - destruct H as (c & <- & Hc). destruct (idiff_good i0 i c) as (A & B & C); auto; [intros ->; apply N; left; auto|].
    refine (conj _ (conj _ (conj _ _))); [reflexivity|constructor; auto|intros [K|K]; auto|constructor; auto using F2_sub_refl].
  - destruct H as (e & <- & He). destruct (IH e) as (A & B & C & D); auto; [intros K; apply N; right; auto|].
    refine (conj _ (conj _ (conj _ _))); [cbn; congruence|constructor; auto|intros [K|K]; [apply N; left; auto|auto]|constructor; auto].
Qed.

Lemma cdiff_pdiff n : pdiff n cdiff.
Proof.
  intros x0 x G0 G P. unfold cdiff. assert (SX : good n x0 /\ Forall2 sub x0 x0) by (split; auto using F2_sub_refl).
  destruct (b_is_empty x) eqn:E; [split; [constructor; auto|intros p Hp _; exists x0; cbn; auto]|].
  destruct (flat x0 x); [split; [constructor; auto|intros p Hp _; exists x0; cbn; auto]|].
  destruct G as (L & W & N), G0 as (L0 & W0 & N0). specialize (N E). assert (S : Forall2 sub x x0) by (apply incl_sub; auto; congruence). split.
  - apply Forall_forall. intros d Hd. destruct (slabs_good x0 x d S W0 W N Hd) as (A & B & C & D). refine (conj (conj _ (conj B _)) D); [congruence|]. intros _. auto.
  - intros p Hp NP. apply slabs_cover; auto.
Qed.
(** the middle of bounded intervals *)
Definition cmid (y : box) : list R := map (fun i => match i with Itv (Some a) (Some b) => (a + b) / 2 | Itv (Some a) None => a | Itv None (Some b) => b | _ => 0 end) y.
Lemma cmid_pmid m : pmid m cmid.
Proof.
  intros y (_ & W & N) E. specialize (N E). clear E. induction W as [|i y Wi W IH]; cbn; constructor.
  - destruct i as [|[a|] [b|]]; [destruct N; left; auto| | | |]; cbn in *; try lra.
  - apply IH. intros K. apply N. right. auto.
Qed.
(** LargestFirst of IBEX with the ratio 0.45; the boxes that it does not cut are given twice *)
Definition cbis (y : box) : option (box * box) := match lf (45 / 100) y with Some r => Some r | None => Some (y, y) end.
Lemma cbis_pbis m : pbis m cbis.
Proof.
  intros y y1 y2 G E H. unfold cbis in H. destruct (lf (45 / 100) y) as [[a b]|] eqn:L.
  - injection H as -> ->. destruct (lf_ok (45 / 100) lf45) as [C S W]. destruct (S _ _ _ L) as (S1 & S2). destruct G as (Ly & Wy & Ny). destruct (W _ _ _ L Wy) as (W1 & W2).
    specialize (Ny E). assert (K : forall f, (forall i, i <> Emp -> f i <> Emp) -> ~ List.In Emp (upd (widest y) f y)).
    { intros f Hf. clear - Ny Hf. revert y Ny. generalize widest. intros w y. generalize (w y). clear w. intros k. revert k.
      induction y as [|i y IH]; intros [|k] N; cbn; auto; intros [K|K]; [apply (Hf i); auto; intros ->; apply N; left; auto|apply N; right; auto|apply N; left; auto|].
      revert K. apply IH. intros K; apply N; right; auto. }
    assert (K1 : ~ List.In Emp y1 /\ ~ List.In Emp y2).
    { unfold lf in L. destruct (_ && _); [|discriminate]. injection L; intros <- <-. split; apply K; intros [|[u|] [v|]]; cbn; congruence. }
    assert (K2 : forall z, Forall2 sub z y -> Forall wf z -> ~ List.In Emp z -> good m z /\ b_is_empty z = false /\ Forall2 sub z y).
    { intros z Sz Wz Nz. refine (conj (conj _ (conj Wz _)) (conj _ Sz)); [rewrite (F2_len _ _ _ Sz); auto|intros _; auto|].
      destruct (normal_point z Wz Nz) as (p & Hp). eapply inb_empty; eauto. }
    refine (conj _ (conj _ _)); [apply K2; tauto|apply K2; tauto|]. intros q. apply (C _ _ _ _ L).
  - injection H as <- <-. repeat split; auto using F2_sub_refl; apply G.
Qed.
