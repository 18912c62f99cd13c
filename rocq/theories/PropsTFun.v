(** * C104: temporal functions applied to tubes *)

From Coq Require Import Reals Lra Lia Bool List Arith.
From Verif Require Import Itv Arith Tube TubeOps TubeSpec TubeFacts TubeOpsFacts TubeOpsFacts2 TubeQueries TubeQueries2 ConvertFacts Concrete PicardFacts TFun.
Import ListNotations.
Open Scope R_scope.

(** ** Specification *)
(** [F] encloses the function [f] of n values *)
Definition encloses (n : nat) (f : list R -> list R) (F : list itv -> list itv) : Prop :=
  (forall b, length (F b) = n) /\ forall p b, Forall2 In p b -> Forall2 In (f p) (F b).
(** inclusion isotonic, with valid results *)
Definition isotonic (F : list itv -> list itv) : Prop :=
  (forall b, Forall wf b -> Forall wf (F b)) /\ forall b c, Forall wf b -> Forall wf c -> Forall2 sub b c -> Forall2 sub (F b) (F c).
(** all the components have the slicing of the first one *)
Definition same_slices (x : list tube) : Prop := forall t u : tube, List.In t x -> List.In u x -> same_dom t u.
(** the component [i] of t -> f(t, x(t)) *)
Definition image (f : list R -> list R) (xs : list (R -> R)) (i : nat) (t : R) : R := nth i (f (t :: map (fun g => g t) xs)) 0.

(** ** The loops *)
Definition step (ec ei : nat -> itv) (acc : tube) (k : nat) : tube := set_input_gate k (ei k) false (set_envelope k (ec k) false acc).
Lemma step_len ec ei t k : length (step ec ei t k) = length t.
Proof. unfold step, set_input_gate, set_envelope. rewrite put_gate_length. destruct (nth_error t k); [apply upd_length|auto]. Qed.
Lemma write_row_spec k : forall c g (y : list tube), length c = length y -> length g = length y -> (forall t : tube, List.In t y -> (k < length t)%nat) ->
  exists y', write_row k c g y = Some y' /\ length y' = length y /\
    forall i (t : tube), nth_error y i = Some t -> nth_error y' i = Some (set_input_gate k (nth i g Emp) false (set_envelope k (nth i c Emp) false t)).
Proof.
  intros c g y. revert c g. induction y as [|t r IH]; intros c g Lc Lg L.
  - exists []. destruct c, g; try discriminate. split; auto. split; auto. intros [|i]; discriminate.
  - destruct c as [|ci c], g as [|gi g]; try discriminate. cbn in Lc, Lg.
    destruct (IH c g) as (y' & E & Ly & F); [lia|lia|intros u U; apply L; right; auto|]. cbn [write_row].
    destruct (nth_error t k) as [s|] eqn:Ek; [|exfalso; apply nth_error_None in Ek; specialize (L t (or_introl eq_refl)); lia].
    rewrite E. eexists. split; [reflexivity|]. split; [cbn; lia|]. intros [|i] u Eu; cbn in *; [injection Eu as <-; reflexivity|auto].
Qed.
Lemma write_out_spec k : forall g (y : list tube), length g = length y -> (forall t : tube, List.In t y -> (k < length t)%nat) ->
  exists y', write_out k g y = Some y' /\ length y' = length y /\
    forall i (t : tube), nth_error y i = Some t -> nth_error y' i = Some (set_output_gate k (nth i g Emp) false t).
Proof.
  intros g y. revert g. induction y as [|t r IH]; intros g Lg L.
  - exists []. destruct g; try discriminate. split; auto. split; auto. intros [|i]; discriminate.
  - destruct g as [|gi g]; try discriminate. cbn in Lg.
    destruct (IH g) as (y' & E & Ly & F); [lia|intros u U; apply L; right; auto|]. cbn [write_out].
    destruct (nth_error t k) as [s|] eqn:Ek; [|exfalso; apply nth_error_None in Ek; specialize (L t (or_introl eq_refl)); lia].
    rewrite E. eexists. split; [reflexivity|]. split; [cbn; lia|]. intros [|i] u Eu; cbn in *; [injection Eu as <-; reflexivity|auto].
Qed.
Lemma rows_spec n (c g : nat -> list itv) E ks : forall y : list tube, length y = n -> (forall k, List.In k ks -> E k = Some (c k, g k) /\ length (c k) = n /\ length (g k) = n) ->
  (forall k (t : tube), List.In k ks -> List.In t y -> (k < length t)%nat) ->
  exists y', rows ks E y = Some y' /\ length y' = n /\
    forall i (t : tube), nth_error y i = Some t -> nth_error y' i = Some (fold_left (step (fun k => nth i (c k) Emp) (fun k => nth i (g k) Emp)) ks t).
Proof.
  induction ks as [|k ks IH]; intros y Ly HE L; cbn [rows].
  - exists y. cbn. auto.
  - destruct (HE k (or_introl eq_refl)) as (Ek & L1 & L2). rewrite Ek.
    destruct (write_row_spec k (c k) (g k) y) as (y1 & E1 & Ly1 & F1); [lia|lia|intros t T; apply L; auto; left; auto|]. rewrite E1.
    destruct (IH y1) as (y2 & E2 & Ly2 & F2); [exact (eq_trans Ly1 Ly)|intros j J; apply HE; right; auto| |].
    + intros j t J T. apply In_nth_error in T as [i T]. assert (Hi : (i < length y1)%nat) by (apply nth_error_Some; congruence).
      destruct (nth_error y i) as [u|] eqn:U; [|apply nth_error_None in U; lia]. rewrite (F1 i u U) in T. injection T as <-.
      change (j < length (step (fun k => nth i (c k) Emp) (fun k => nth i (g k) Emp) u k))%nat. rewrite step_len. apply L; [right; auto|]. eapply nth_error_In; eauto.
    + exists y2. split; auto. split; auto. intros i t T. cbn [fold_left]. apply F2. apply F1. auto.
Qed.
(** the loops compute the map_loop of TubeOps.v on each component *)
Lemma tv_eval_spec n m (c g : nat -> list itv) E o (y : list tube) : length y = n -> (forall k, (k < m)%nat -> E k = Some (c k, g k) /\ length (c k) = n /\ length (g k) = n) ->
  length o = n -> (0 < m)%nat -> (forall t : tube, List.In t y -> length t = m) ->
  exists y', tv_eval m E (Some o) y = Some y' /\ length y' = n /\
    forall i (t : tube), nth_error y i = Some t -> nth_error y' i = Some (map_loop (fun k => nth i (c k) Emp) (fun k => nth i (g k) Emp) (nth i o Emp) t).
Proof.
  intros Ly HE Lo Hm Lm. unfold tv_eval. destruct (rows_spec n c g E (seq 0 m) y Ly) as (y1 & E1 & L1 & F1).
  - intros k K. apply in_seq in K. apply HE. lia.
  - intros k t K T. apply in_seq in K. rewrite (Lm t T). lia.
  - rewrite E1. assert (X : forall i (t : tube), nth_error y i = Some t -> length (fold_left (step (fun k => nth i (c k) Emp) (fun k => nth i (g k) Emp)) (seq 0 m) t) = length t).
    { intros i t _. generalize (seq 0 m). intros l. revert t. induction l as [|k l IH]; intros t; cbn; auto. rewrite IH. apply step_len. }
    destruct (write_out_spec (m - 1) o y1) as (y2 & E2 & L2 & F2); [lia| |].
    + intros t T. apply In_nth_error in T as [i T]. assert (Hi : (i < length y1)%nat) by (apply nth_error_Some; congruence).
      destruct (nth_error y i) as [u|] eqn:U; [|apply nth_error_None in U; lia]. rewrite (F1 i u U) in T. injection T as <-. rewrite (X i u U), (Lm u); [lia|eapply nth_error_In; eauto].
    + rewrite E2. exists y2. split; auto. split; [exact (eq_trans L2 L1)|]. intros i t T. rewrite (F2 i _ (F1 i t T)).
      assert (Lt : length t = m) by (apply Lm; eapply nth_error_In; eauto). unfold map_loop. rewrite Lt. reflexivity.
Qed.

(** ** The inputs *)
Lemma row_spec k : forall x : list tube, (forall t : tube, List.In t x -> (k < length t)%nat) -> row x k = Some (map (fun t => sl t k) x).
Proof.
  induction x as [|t x IH]; intros L; [reflexivity|]. cbn [row map]. rewrite IH by (intros u U; apply L; right; auto).
  destruct (nth_error t k) as [s|] eqn:E; [rewrite (sl_nth _ _ _ E); auto|]. apply nth_error_None in E. specialize (L t (or_introl eq_refl)). lia.
Qed.
Lemma same_len t u : same_dom t u -> length t = length u.
Proof. intros H. apply (f_equal (@length _)) in H. rewrite !map_length in H. auto. Qed.
Lemma resize_len n x : x <> [] -> (0 < n)%nat -> length (tv_resize n x) = n.
Proof. destruct x as [|x0 x]; [congruence|]. intros _ Hn. cbn [tv_resize]. rewrite app_length, firstn_length, repeat_length. lia. Qed.
Lemma resize_in n x t : List.In t (tv_resize n x) -> List.In t x \/ exists x0, List.In x0 x /\ t = tube_set ALL x0.
Proof.
  destruct x as [|x0 x]; [intros []|]. cbn [tv_resize]. intros T. apply in_app_iff in T as [T|T].
  - left. eapply in_firstn; eauto.
  - apply repeat_spec in T. right. exists x0. split; [left; auto|auto].
Qed.
Lemma tube_set_dom y x : map dom (tube_set y x) = map dom x.
Proof.
  unfold tube_set. generalize (seq 0 (length x)). intros l. revert x. induction l as [|k l IH]; intros x; cbn; auto. rewrite IH. apply slice_set_dom.
Qed.
Lemma resize_ok a b n x : same_slices x -> Forall (tube_ok a b) x -> forall t : tube, List.In t (tv_resize n x) -> tube_ok a b t /\ forall u : tube, List.In u x -> map dom t = map dom u.
Proof.
  intros S O t T. rewrite Forall_forall in O. apply resize_in in T as [T|(x0 & X0 & ->)].
  - split; [apply O; auto|]. intros u U. apply (S t u T U).
  - split; [apply tube_set_ok; [exact Logic.I|apply O; auto]|]. intros u U. rewrite tube_set_dom. apply (S x0 u X0 U).
Qed.
Lemma empty_no a b t f : tube_ok a b t -> has t f -> tube_is_empty t = false.
Proof.
  intros O H. destruct t as [|s t]; auto. cbn [tube_is_empty]. apply orb_false_iff.
  assert (X : forall q, List.In q (s :: t) -> is_empty (s_in q) = false /\ is_empty (s_cod q) = false /\ is_empty (s_out q) = false).
  { intros q Q. pose proof (ok_slices _ _ _ O) as F. rewrite Forall_forall in F. destruct (F q Q) as (_ & _ & _ & S1 & S2).
    destruct (H q Q) as (H1 & H2 & _). refine (conj _ (conj _ _)); apply is_empty_false; intros E; [rewrite E in H1; exact H1|apply S1 in H1; rewrite E in H1; exact H1|rewrite E in H2; exact H2]. }
  split; [apply X; left; auto|]. destruct (existsb _ (s :: t)) eqn:E; auto. apply existsb_exists in E as (q & Q & B).
  destruct (X q Q) as (_ & X2 & X3). rewrite X2, X3 in B. discriminate.
Qed.
Lemma Forall2_nth {A B} (P : A -> B -> Prop) l l' i da db : Forall2 P l l' -> (i < length l')%nat -> P (nth i l da) (nth i l' db).
Proof. intros H. revert i. induction H; intros i L; cbn in *; [lia|]. destruct i; auto. apply IHForall2. lia. Qed.
Lemma Forall2_len {A B} (P : A -> B -> Prop) l l' : Forall2 P l l' -> length l = length l'.
Proof. induction 1; cbn; auto. Qed.
Lemma box_in {A} (Q : A -> R -> Prop) (xs : list (R -> R)) (x : list A) (h : A -> itv) t :
  Forall2 (fun g a => In (g t) (h a)) xs x -> Forall2 In (map (fun g => g t) xs) (map h x).
Proof. induction 1; cbn; constructor; auto. Qed.

(** ** TFunction::eval_vector *)
Lemma tfunction_loop a b n F x0 r : (0 < n)%nat -> let x := x0 :: r in Forall (tube_ok a b) x -> same_slices x -> (forall bx, length (F bx) = n) ->
  existsb tube_is_empty x = false ->
  exists y, tfunction_eval F n x = Some y /\ length y = n /\ forall i (u : tube), nth_error y i = Some u ->
    (i < n)%nat /\ exists t, nth_error (tv_resize n x) i = Some t /\ tube_ok a b t /\ map dom t = map dom x0 /\
    u = map_loop (fun k => nth i (F (s_dom (sl x0 k) :: map (fun t => s_cod (sl t k)) x)) Emp)
                 (fun k => nth i (F (pt (s_lb (sl x0 k)) :: map (fun t => s_in (sl t k)) x)) Emp)
                 (nth i (F (pt (s_ub (sl x0 (length x0 - 1))) :: map (fun t => s_out (sl t (length x0 - 1))) x)) Emp) t.
Proof.
  intros Hn x O S LF NE. unfold tfunction_eval. fold x. unfold x at 1. rewrite NE.
  assert (Ly : length (tv_resize n x) = n) by (apply resize_len; [discriminate|auto]).
  pose proof O as O'. rewrite Forall_forall in O'.
  assert (O0 : tube_ok a b x0) by (apply O'; left; auto).
  assert (L0 : (0 < length x0)%nat) by (pose proof (ok_ne _ _ _ O0); destruct x0; [congruence|cbn; lia]).
  assert (Lx : forall t : tube, List.In t x -> length t = length x0) by (intros t T; apply same_len, S; [auto|left; auto]).
  assert (Rw : forall k, (k < length x0)%nat -> row x k = Some (map (fun t => sl t k) x)) by (intros k K; apply row_spec; intros t T; rewrite (Lx t T); auto).
  destruct (tv_eval_spec n (length x0) (fun k => F (s_dom (sl x0 k) :: map (fun t => s_cod (sl t k)) x)) (fun k => F (pt (s_lb (sl x0 k)) :: map (fun t => s_in (sl t k)) x))
    (fun k => match row x k with
              | Some (s0 :: l) => Some (F (s_dom s0 :: map s_cod (s0 :: l)), F (pt (s_lb s0) :: map s_in (s0 :: l)))
              | _ => None
              end) (F (pt (s_ub (sl x0 (length x0 - 1))) :: map (fun t => s_out (sl t (length x0 - 1))) x)) (tv_resize n x) Ly) as (y & E & Lyy & Fy); auto.
  - intros k K. rewrite (Rw k K). unfold x. cbn [map]. rewrite !map_map. auto.
  - intros t T. destruct (resize_ok a b n x S O t T) as [_ D]. specialize (D x0 (or_introl eq_refl)). apply (f_equal (@length _)) in D. rewrite !map_length in D. auto.
  - rewrite (Rw (length x0 - 1)%nat) by lia. unfold x at 2. cbn [map]. rewrite !map_map.
    change (s_out (sl x0 (length x0 - 1)) :: map (fun t => s_out (sl t (length x0 - 1))) r) with (map (fun t => s_out (sl t (length x0 - 1))) x).
    exists y. split; [exact E|]. split; auto. intros i u U.
    assert (Hi : (i < n)%nat) by (rewrite <- Lyy; apply nth_error_Some; rewrite U; discriminate). split; auto.
    destruct (nth_error (tv_resize n x) i) as [t|] eqn:T; [|apply nth_error_None in T; lia]. exists t. split; auto.
    destruct (resize_ok a b n x S O t (nth_error_In _ _ T)) as [Ot D]. split; auto. split; [apply D; left; auto|].
    rewrite (Fy i t T) in U. injection U as <-. reflexivity.
Qed.
Lemma comp_slice a b x t0 k s t : Forall (tube_ok a b) x -> same_slices x -> List.In t0 x -> nth_error t0 k = Some s -> List.In t x ->
  exists q, nth_error t k = Some q /\ sl t k = q /\ s_lb q = s_lb s /\ s_ub q = s_ub s.
Proof.
  intros O S T0 E T. destruct (nth_dom t0 t k s (S t0 t T0 T) E) as (q & Q & D1 & D2). exists q. rewrite (sl_nth _ _ _ Q). auto.
Qed.
(** A temporal function of a vector of tubes that share their slicing gives tubes with the same slicing that contain the
    image of all the trajectories. *)
Theorem C104_function_partial : forall a b n f F x xs, (0 < n)%nat -> x <> [] -> Forall (tube_ok a b) x -> same_slices x -> encloses n f F ->
  Forall2 (fun g t => has t g) xs x ->
  exists y, tfunction_eval F n x = Some y /\ length y = n /\
    forall i u, nth_error y i = Some u -> has u (image f xs i) /\ forall t, List.In t x -> same_dom u t.
Proof.
  intros a b n f F x xs Hn Ne O S [LF HF] Hx. destruct x as [|x0 r]; [congruence|]. set (x := x0 :: r) in *.
  pose proof O as O'. rewrite Forall_forall in O'.
  assert (NE : existsb tube_is_empty x = false).
  { destruct (existsb tube_is_empty x) eqn:E; auto. apply existsb_exists in E as (t & T & B). clear - Hx T B O'. exfalso.
    induction Hx as [|g q l l' H Hx IH]; [destruct T|]. destruct T as [<-|T]; [rewrite (empty_no a b q g) in B; auto; [discriminate|apply O'; left; auto]|].
    apply IH; auto. intros z Z. apply O'. right. auto. }
  destruct (tfunction_loop a b n F x0 r Hn O S LF NE) as (y & E & Ly & Fy). fold x in E, Fy. exists y. split; auto. split; auto.
  assert (Bx : forall t (h : tube -> itv), (forall q g, List.In q x -> has q g -> In (g t) (h q)) -> Forall2 In (map (fun g => g t) xs) (map h x)).
  { intros t h Hh. apply (box_in (fun _ _ => True)). clear - Hx Hh. induction Hx as [|g q l l' H Hx IH]; constructor.
    - apply Hh; [left; auto|auto].
    - apply IH. intros. apply Hh; [right; auto|auto]. }
  intros i u U. destruct (Fy i u U) as (Hi & t & T & Ot & D & ->). split.
  2:{ intros q Q. unfold same_dom. change (map dom (map_loop (fun k => nth i (F (s_dom (sl x0 k) :: map (fun t => s_cod (sl t k)) x)) Emp)
                 (fun k => nth i (F (pt (s_lb (sl x0 k)) :: map (fun t => s_in (sl t k)) x)) Emp)
                 (nth i (F (pt (s_ub (sl x0 (length x0 - 1))) :: map (fun t => s_out (sl t (length x0 - 1))) x)) Emp) t) = map dom q). rewrite map_loop_dom, D. apply (S x0 q (or_introl eq_refl) Q). }
  apply (map_loop_has a b); [apply Ot|]. intros k s Es. destruct (nth_dom t x0 k s D Es) as (s0 & E0 & D1 & D2). rewrite (sl_nth _ _ _ E0).
  unfold image. assert (Sl : forall q, List.In q x -> exists p, nth_error q k = Some p /\ sl q k = p /\ s_lb p = s_lb s /\ s_ub p = s_ub s).
  { intros q Q. destruct (comp_slice a b x x0 k s0 q O S (or_introl eq_refl) E0 Q) as (p & P1 & P2 & P3 & P4). exists p. rewrite P3, P4. auto. }
  assert (Ln : forall bx, (i < length (F bx))%nat) by (intros bx; rewrite LF; auto).
  split; [|split].
  - apply (Forall2_nth In); [|auto]. apply HF. constructor; [rewrite D1; cbn; lra|]. apply Bx. intros q g Q Hg.
    destruct (Sl q Q) as (p & P1 & -> & P3 & P4). rewrite <- P3. apply (Hg p). eapply nth_error_In; eauto.
  - intros v Hv. apply (Forall2_nth In); [|auto]. apply HF. constructor; [cbn; lra|]. apply Bx. intros q g Q Hg.
    destruct (Sl q Q) as (p & P1 & -> & P3 & P4). apply (Hg p); [eapply nth_error_In; eauto|lra].
  - intros Lk. assert (Lt : length t = length x0) by (apply same_len; exact D). 
    assert (Ek : (length x0 - 1)%nat = k) by lia. rewrite Ek, (sl_nth _ _ _ E0).
    apply (Forall2_nth In); [|auto]. apply HF. constructor; [rewrite D2; cbn; lra|]. apply Bx. intros q g Q Hg.
    destruct (Sl q Q) as (p & P1 & -> & P3 & P4). rewrite <- P4. apply (Hg p). eapply nth_error_In; eauto.
Qed.
Lemma map_sub {A} (h h' : A -> itv) l : (forall a, List.In a l -> sub (h a) (h' a)) -> Forall2 sub (map h l) (map h' l).
Proof. induction l as [|c l IH]; intros H; constructor; [apply H; left; auto|apply IH; intros; apply H; right; auto]. Qed.
Lemma map_wf {A} (h : A -> itv) l : (forall a, List.In a l -> wf (h a)) -> Forall wf (map h l).
Proof. induction l as [|c l IH]; intros H; constructor; [apply H; left; auto|apply IH; intros; apply H; right; auto]. Qed.
Lemma nth_wf i l : Forall wf l -> wf (nth i l Emp).
Proof. intros H. revert i. induction H; intros [|i]; cbn; auto. Qed.
Lemma map_in_ext {A B} (h h' : A -> B) l : (forall a, List.In a l -> h a = h' a) -> map h l = map h' l.
Proof. apply map_ext_in. Qed.
(** With an isotonic enclosure (natural interval evaluation), the results are well-formed tubes, equal to the enclosure
    of the domain and values of each slice, and to that of the gates at the bounds of the slices. *)
Theorem C104_values : forall a b n F x, (0 < n)%nat -> x <> [] -> Forall (tube_ok a b) x -> same_slices x -> (forall bx, length (F bx) = n) -> isotonic F ->
  existsb tube_is_empty x = false ->
  exists y, tfunction_eval F n x = Some y /\ length y = n /\ forall i u, nth_error y i = Some u -> tube_ok a b u /\
    forall q s t, List.In q x -> List.In s q ->
      (s_lb s < t < s_ub s -> eval_t u t = nth i (F (s_dom s :: map (fun p => eval_t p t) x)) Emp) /\
      (t = s_lb s \/ t = s_ub s -> eval_t u t = nth i (F (pt t :: map (fun p => eval_t p t) x)) Emp).
Proof.
  intros a b n F x Hn Ne O S LF [WF MF] NE. destruct x as [|x0 r]; [congruence|]. set (x := x0 :: r) in *.
  pose proof O as O'. rewrite Forall_forall in O'.
  destruct (tfunction_loop a b n F x0 r Hn O S LF NE) as (y & E & Ly & Fy). fold x in E, Fy. exists y. split; auto. split; auto.
  intros i u U. destruct (Fy i u U) as (Hi & t & T & Ot & D & Eu).
  assert (Lt : length t = length x0) by (apply same_len; exact D).
  assert (Ln : forall bx, (i < length (F bx))%nat) by (intros bx; rewrite LF; auto).
  assert (Sl : forall k s, nth_error t k = Some s -> nth_error x0 k = Some (sl x0 k) /\ forall q, List.In q x -> nth_error q k = Some (sl q k) /\ s_lb (sl q k) = s_lb s /\ s_ub (sl q k) = s_ub s /\ slice_ok (sl q k) /\ tube_ok a b q).
  { intros k s Es. destruct (nth_dom t x0 k s D Es) as (s0 & E0 & D1 & D2). rewrite (sl_nth _ _ _ E0). split; auto.
    intros q Q. destruct (comp_slice a b x x0 k s0 q O S (or_introl eq_refl) E0 Q) as (p & P1 & P2 & P3 & P4). rewrite P2. split; auto. split; [congruence|]. split; [congruence|].
    split; [|auto]. pose proof (ok_slices _ _ _ (O' q Q)) as SO. rewrite Forall_forall in SO. apply SO. eapply nth_error_In; eauto. }
  assert (In0 : List.In x0 x) by (left; auto).
  assert (Bd : forall k s, nth_error t k = Some s -> s_lb s < s_ub s).
  { intros k s Es. destruct (chain_in_bounds _ _ _ _ (ok_chain _ _ _ Ot) (nth_error_In _ _ Es)) as (B1 & B2 & B3). lra. }
  assert (Sh : forall k s s' q, nth_error t k = Some s -> nth_error t (Datatypes.S k) = Some s' -> List.In q x -> s_in (sl q (Datatypes.S k)) = s_out (sl q k) /\ s_lb s' = s_ub s).
  { intros k s s' q Es Es' Q. destruct (Sl k s Es) as [_ A1]. destruct (Sl _ s' Es') as [_ A2]. destruct (A1 q Q) as (B1 & B2 & B3 & _ & Oq). destruct (A2 q Q) as (C1 & C2 & C3 & _).
    pose proof (chain_from_nth _ _ _ _ _ _ (ok_chain _ _ _ Oq) B1 C1) as Hn'. split; [|congruence].
    symmetry. exact (proj1 (gates_shared_nth q) (ok_shared _ _ _ Oq) k _ _ B1 C1). }
  assert (Ou : tube_ok a b u).
  { rewrite Eu. apply map_loop_ok; auto.
    - intros k s Es. destruct (Sl k s Es) as [E0 A]. destruct (A x0 In0) as (_ & B2 & B3 & _). pose proof (Bd k s Es) as Bs. split; [|split].
      + apply nth_wf, WF. constructor; [cbn; lra|]. apply map_wf. intros q Q. apply (A q Q).
      + apply nth_wf, WF. constructor; [cbn; lra|]. apply map_wf. intros q Q. apply (A q Q).
      + apply (Forall2_nth sub); auto. apply MF; [(constructor; [cbn; lra|]; apply map_wf; intros h H; apply (A h H))|(constructor; [cbn; lra|]; apply map_wf; intros h H; apply (A h H))|]. constructor; [intros v; cbn; lra|]. apply map_sub. intros q Q. apply (A q Q).
    - intros k s s' Es Es'. destruct (Sl k s Es) as [E0 A]. destruct (Sl _ s' Es') as [E0' A']. destruct (A x0 In0) as (_ & B2 & B3 & _). destruct (A' x0 In0) as (_ & C2 & C3 & _). pose proof (Bd k s Es) as Bs.
      destruct (Sh k s s' x0 Es Es' In0) as [_ Hl].
      apply (Forall2_nth sub); auto. apply MF; [(constructor; [cbn; lra|]; apply map_wf; intros h H; apply (A' h H))|(constructor; [cbn; lra|]; apply map_wf; intros h H; apply (A h H))|]. constructor; [intros v; cbn; lra|]. apply map_sub. intros q Q. rewrite (proj1 (Sh k s s' q Es Es' Q)). apply (A q Q).
    - destruct (nth_error t (length x0 - 1)) as [s|] eqn:Es.
      + destruct (Sl _ s Es) as [E0 A]. apply nth_wf, WF. constructor; [cbn; lra|]. apply map_wf. intros q Q. apply (A q Q).
      + exfalso. apply nth_error_None in Es. pose proof (ok_ne _ _ _ Ot). destruct t; [congruence|cbn in *; lia].
    - rewrite Lt. destruct (nth_error t (length x0 - 1)) as [s|] eqn:Es.
      + destruct (Sl _ s Es) as [E0 A]. destruct (A x0 In0) as (_ & B2 & B3 & _). pose proof (Bd _ s Es) as Bs.
        apply (Forall2_nth sub); auto. apply MF; [(constructor; [cbn; lra|]; apply map_wf; intros h H; apply (A h H))|(constructor; [cbn; lra|]; apply map_wf; intros h H; apply (A h H))|]. constructor; [intros v; cbn; lra|]. apply map_sub. intros q Q. apply (A q Q).
      + exfalso. apply nth_error_None in Es. pose proof (ok_ne _ _ _ Ot). destruct t; [congruence|cbn in *; lia]. }
  split; auto. intros q s v Q Sq. apply In_nth_error in Sq as [k Ek].
  assert (exists p, nth_error t k = Some p) as [p Ep].
  { destruct (nth_dom q t k s) as (p & P & _); eauto. rewrite D. apply (S q x0 Q In0). }
  destruct (Sl k p Ep) as [E0 A]. destruct (A q Q) as (B1 & B2 & B3 & _). assert (s = sl q k) by congruence. subst s. rewrite B2, B3.
  destruct (A x0 In0) as (_ & Z2 & Z3 & _). pose proof (Bd k p Ep) as Bp.
  assert (Dq : s_dom (sl q k) = s_dom (sl x0 k)) by (unfold s_dom; rewrite B2, B3, Z2, Z3; auto). rewrite Dq.
  pose proof (map_loop_nth (fun k => nth i (F (s_dom (sl x0 k) :: map (fun t => s_cod (sl t k)) x)) Emp)
                 (fun k => nth i (F (pt (s_lb (sl x0 k)) :: map (fun t => s_in (sl t k)) x)) Emp)
                 (nth i (F (pt (s_ub (sl x0 (length x0 - 1))) :: map (fun t => s_out (sl t (length x0 - 1))) x)) Emp) t k) as M. rewrite <- Eu, Ep in M. cbn [option_map] in M.
  split.
  - intros V. rewrite (eval_t_slice a b u k _ v Ou M) by (cbn; lra). rewrite slice_eval_mid by (cbn; lra). cbn [s_cod].
    f_equal. f_equal. f_equal. apply map_ext_in. intros h H. destruct (A h H) as (H1 & H2 & H3 & _ & Oh).
    rewrite (eval_t_slice a b h k _ v Oh H1), slice_eval_mid by lra. auto.
  - intros [->| ->].
    + rewrite (eval_t_slice a b u k _ _ Ou M) by (cbn; lra). match goal with |- slice_eval ?z _ = _ => refine (eq_trans (slice_eval_lb z _) _) end; [cbn; lra|]. cbn [s_in].
      rewrite Z2. f_equal. f_equal. f_equal. apply map_ext_in. intros h H. destruct (A h H) as (H1 & H2 & H3 & _ & Oh).
      rewrite <- H2. rewrite (eval_t_slice a b h k _ _ Oh H1), slice_eval_lb by lra. auto.
    + rewrite (eval_t_slice a b u k _ _ Ou M) by (cbn; lra). match goal with |- slice_eval ?z _ = _ => refine (eq_trans (slice_eval_ub z _) _) end; [cbn; lra|]. cbn [s_out].
      assert (Q1 : map (fun h => eval_t h (s_ub p)) x = map (fun h => s_out (sl h k)) x).
      { apply map_ext_in. intros h H. destruct (A h H) as (H1 & H2 & H3 & _ & Oh). rewrite <- H3. rewrite (eval_t_slice a b h k _ _ Oh H1), slice_eval_ub by lra. auto. }
      rewrite Q1. destruct (Nat.eqb_spec (Datatypes.S k) (length t)) as [e|e].
      * assert (Ek' : (length x0 - 1)%nat = k) by lia. rewrite Ek', Z3. auto.
      * destruct (nth_error t (Datatypes.S k)) as [p'|] eqn:Ep'; [|apply nth_error_None in Ep'; assert (k < length t)%nat by (apply nth_error_Some; congruence); lia].
        destruct (Sl _ p' Ep') as [_ A']. destruct (A' x0 In0) as (_ & Y2 & _). rewrite Y2, (proj2 (Sh k p p' x0 Ep Ep' In0)).
        f_equal. f_equal. f_equal. apply map_ext_in. intros h H. apply (Sh k p p' h Ep Ep' H).
Qed.

(** ** TFnc::eval_vector *)
Definition from_opt (o : option (list itv)) : list itv := match o with Some l => l | None => [] end.
Lemma fnc_loop a b n E x : (0 < n)%nat -> x <> [] -> Forall (tube_ok a b) x -> same_slices (tv_resize n x) -> existsb tube_is_empty x = false ->
  (forall u v, a <= u -> u <= v -> v <= b -> exists c, E (Itv (Some u) (Some v)) = Some c /\ length c = n) ->
  exists y0 y, List.In y0 (tv_resize n x) /\ tfnc_eval E n x = Some y /\ length y = n /\
    (forall k, (k < length y0)%nat -> nth_error y0 k = Some (sl y0 k) /\ a <= s_lb (sl y0 k) /\ s_lb (sl y0 k) < s_ub (sl y0 k) /\ s_ub (sl y0 k) <= b) /\
    forall i u, nth_error y i = Some u -> (i < n)%nat /\ exists t : tube, List.In t (tv_resize n x) /\ tube_ok a b t /\ length t = length y0 /\ nth_error (tv_resize n x) i = Some t /\
      u = map_loop (fun k => nth i (from_opt (E (s_dom (sl y0 k)))) Emp) (fun k => nth i (from_opt (E (pt (s_lb (sl y0 k))))) Emp)
                   (nth i (from_opt (E (pt (s_ub (sl y0 (length y0 - 1)))))) Emp) t.
Proof.
  intros Hn Ne O S NE HE. unfold tfnc_eval. rewrite NE.
  assert (Ly : length (tv_resize n x) = n) by (apply resize_len; auto).
  assert (Oy : forall t : tube, List.In t (tv_resize n x) -> tube_ok a b t).
  { intros t T. rewrite Forall_forall in O. apply resize_in in T as [T|(x0 & X0 & ->)]; [auto|]. apply tube_set_ok; [exact Logic.I|apply O; auto]. }
  destruct (tv_resize n x) as [|y0 r] eqn:Ey; [cbn in Ly; lia|]. set (ys := y0 :: r) in *.
  assert (In0 : List.In y0 ys) by (left; auto). pose proof (Oy y0 In0) as O0.
  assert (L0 : (0 < length y0)%nat) by (pose proof (ok_ne _ _ _ O0); destruct y0; [congruence|cbn; lia]).
  assert (Ny : forall k, (k < length y0)%nat -> nth_error y0 k = Some (sl y0 k) /\ a <= s_lb (sl y0 k) /\ s_lb (sl y0 k) < s_ub (sl y0 k) /\ s_ub (sl y0 k) <= b).
  { intros k K. destruct (nth_error y0 k) as [s|] eqn:Es; [|apply nth_error_None in Es; lia]. rewrite (sl_nth _ _ _ Es). split; auto.
    destruct (chain_in_bounds _ _ _ _ (ok_chain _ _ _ O0) (nth_error_In _ _ Es)) as (B1 & B2 & B3). lra. }
  destruct (tv_eval_spec n (length y0) (fun k => from_opt (E (s_dom (sl y0 k)))) (fun k => from_opt (E (pt (s_lb (sl y0 k)))))
    (fun k => match nth_error y0 k with
              | Some s => match E (s_dom s), E (pt (s_lb s)) with Some c, Some g => Some (c, g) | _, _ => None end
              | None => None
              end) (from_opt (E (pt (s_ub (sl y0 (length y0 - 1)))))) ys Ly) as (y & E1 & L1 & F1); auto.
  - intros k K. destruct (Ny k K) as (N1 & N2 & N3 & N4). rewrite N1.
    destruct (HE (s_lb (sl y0 k)) (s_ub (sl y0 k))) as (c & C1 & C2); [lra..|]. destruct (HE (s_lb (sl y0 k)) (s_lb (sl y0 k))) as (g & G1 & G2); [lra..|].
    unfold s_dom, pt. rewrite C1, G1. cbn. auto.
  - destruct (Ny (length y0 - 1)%nat) as (N1 & N2 & N3 & N4); [lia|].
    destruct (HE (s_ub (sl y0 (length y0 - 1))) (s_ub (sl y0 (length y0 - 1)))) as (g & G1 & G2); [lra..|]. unfold pt. rewrite G1. auto.
  - intros t T. apply same_len. apply (S t y0 T In0).
  - destruct (Ny (length y0 - 1)%nat) as (N1 & N2 & N3 & N4); [lia|]. rewrite N1.
    destruct (HE (s_ub (sl y0 (length y0 - 1))) (s_ub (sl y0 (length y0 - 1)))) as (g & G1 & G2); [lra..|].
    exists y0, y. split; auto. split; [unfold pt in *; rewrite G1 in *; exact E1|]. split; auto. split; auto. intros i u U.
    assert (Hi : (i < n)%nat) by (rewrite <- L1; apply nth_error_Some; congruence). split; auto.
    destruct (nth_error ys i) as [t|] eqn:T; [|apply nth_error_None in T; lia]. pose proof (nth_error_In _ _ T) as Tin. exists t. split; auto. split; auto.
    split; [apply same_len, (S t y0 Tin In0)|]. split; auto. rewrite (F1 i t T) in U. injection U as <-. reflexivity.
Qed.
(** Any temporal function given by an evaluation on time intervals: the tubes contain the functions it encloses, as soon
    as the components of the result share their slicing. *)
Theorem C104_fnc : forall a b n E x h, (0 < n)%nat -> x <> [] -> Forall (tube_ok a b) x -> same_slices (tv_resize n x) -> existsb tube_is_empty x = false ->
  (forall u v, a <= u -> u <= v -> v <= b -> exists c, E (Itv (Some u) (Some v)) = Some c /\ length c = n /\ forall i t, (i < n)%nat -> u <= t <= v -> In (h i t) (nth i c Emp)) ->
  exists y, tfnc_eval E n x = Some y /\ length y = n /\
    forall i u, nth_error y i = Some u -> has u (h i) /\ forall t, List.In t (tv_resize n x) -> same_dom u t.
Proof.
  intros a b n E x h Hn Ne O S NE HE. destruct (fnc_loop a b n E x Hn Ne O S NE) as (y0 & y & In0 & Ey & Ly & Ny & F).
  { intros u v H1 H2 H3. destruct (HE u v H1 H2 H3) as (c & C1 & C2 & _). eauto. }
  exists y. split; auto. split; auto. intros i u U. destruct (F i u U) as (Hi & t & T & Ot & Lt & _ & ->). split.
  2:{ intros q Q. unfold same_dom. refine (eq_trans (map_loop_dom _ _ _ _) _). apply (S t q T Q). }
  apply (map_loop_has a b); [apply Ot|]. intros k s Es.
  destruct (nth_dom t y0 k s (S t y0 T In0) Es) as (s0 & E0 & D1 & D2). assert (Hk : (k < length y0)%nat) by (apply nth_error_Some; congruence).
  destruct (Ny k Hk) as (M1 & M2 & M3 & M4). rewrite (sl_nth _ _ _ E0) in *.
  split; [|split].
  - destruct (HE (s_lb s0) (s_lb s0)) as (c & C1 & C2 & C3); [lra..|]. unfold pt. rewrite C1. cbn. apply C3; [auto|lra].
  - intros v V. destruct (HE (s_lb s0) (s_ub s0)) as (c & C1 & C2 & C3); [lra..|]. unfold s_dom. rewrite C1. cbn. apply C3; [auto|lra].
  - intros Lk. assert (K' : (length y0 - 1)%nat = k) by lia. rewrite K', (sl_nth _ _ _ E0).
    destruct (HE (s_ub s0) (s_ub s0)) as (c & C1 & C2 & C3); [lra..|]. unfold pt. rewrite C1. cbn. apply C3; [auto|lra].
Qed.

(** ** Delays *)
Lemma t0_ok a b x : tube_ok a b x -> t0 x = a /\ tf x = b.
Proof. intros O. split; [apply (chain_t0 x a b)|apply (chain_tf x a b)]; apply O. Qed.
Lemma delay_at_in a b d x u v : tube_ok a b x -> a <= u -> u <= v -> v <= b -> a <= u + d -> v + d <= b ->
  delay_at d [x] (Itv (Some u) (Some v)) = Some [eval_itv x (Itv (Some (u + d)) (Some (v + d)))].
Proof.
  intros O H1 H2 H3 H4 H5. destruct (t0_ok _ _ _ O) as [T0 TF]. unfold delay_at. rewrite T0, TF. cbn [shift_itv option_map].
  rewrite !sub_is_subset; auto; try (cbn; lra); intros z; cbn; lra.
Qed.
Lemma delay_at_out a b d x u v : tube_ok a b x -> a <= u -> u <= v -> v <= b -> ~ (a <= u + d /\ v + d <= b) ->
  delay_at d [x] (Itv (Some u) (Some v)) = Some [ALL].
Proof.
  intros O H1 H2 H3 H4. destruct (t0_ok _ _ _ O) as [T0 TF]. unfold delay_at. rewrite T0, TF. cbn [shift_itv option_map].
  rewrite (sub_is_subset (Itv (Some u) (Some v))); [|cbn; lra|intros z; cbn; lra].
  destruct (is_subset _ _) eqn:E; auto. exfalso. apply H4. apply is_subset_sub in E. split; [assert (Z : In (u + d) (Itv (Some a) (Some b))) by (apply E; cbn; lra)|assert (Z : In (v + d) (Itv (Some a) (Some b))) by (apply E; cbn; lra)]; cbn in Z; lra.
Qed.
Lemma delay_at_tot a b d x u v : tube_ok a b x -> a <= u -> u <= v -> v <= b -> exists c, delay_at d [x] (Itv (Some u) (Some v)) = Some c /\ length c = 1%nat.
Proof.
  intros O H1 H2 H3. destruct (Rle_dec a (u + d)) as [A|A]; [destruct (Rle_dec (v + d) b) as [B|B]|].
  - rewrite (delay_at_in a b) by auto. eauto.
  - rewrite (delay_at_out a b) by (auto; lra). eauto.
  - rewrite (delay_at_out a b) by (auto; lra). eauto.
Qed.
Lemma single_slices (x : tube) : same_slices (tv_resize 1 [x]).
Proof. cbn. intros t u [<-|[]] [<-|[]]. reflexivity. Qed.
(** A delayed tube contains all the trajectories that take at [t] the value at [t + d] of a trajectory of [x]; nothing is
    claimed of them when t + d is outside of the domain of [x]. *)
Theorem C104_delay : forall a b d x f, tube_ok a b x -> has x f ->
  exists y, delay_eval d x = Some y /\ same_dom y x /\ forall g, (forall t, a <= t <= b -> a <= t + d <= b -> g t = f (t + d)) -> has y g.
Proof.
  intros a b d x f O H. assert (NE : existsb tube_is_empty [x] = false) by (cbn; rewrite (empty_no a b x f); auto).
  assert (X : forall g, (forall t, a <= t <= b -> a <= t + d <= b -> g t = f (t + d)) -> exists y, delay_eval d x = Some y /\ same_dom y x /\ has y g).
  { intros g G. destruct (C104_fnc a b 1 (delay_at d [x]) [x] (fun _ => g)) as (y & E & L & F); auto using single_slices; [discriminate| |].
    - intros u v H1 H2 H3. destruct (delay_at_tot a b d x u v O H1 H2 H3) as (c & C1 & C2). exists c. split; auto. split; auto.
      intros i t Hi Ht. assert (i = 0%nat) by lia. subst i.
      destruct (Rle_dec a (u + d)) as [A|A]; [destruct (Rle_dec (v + d) b) as [B|B]|].
      + rewrite (delay_at_in a b) in C1 by auto. assert (c = [eval_itv x (Itv (Some (u + d)) (Some (v + d)))]) as -> by congruence. cbn [nth]. rewrite (G t) by lra. apply (eval_itv_in a b); auto. cbn. lra.
      + rewrite (delay_at_out a b) in C1 by (auto; lra). injection C1 as <-. apply In_ALL.
      + rewrite (delay_at_out a b) in C1 by (auto; lra). injection C1 as <-. apply In_ALL.
    - unfold delay_eval. rewrite E. destruct y as [|y0 [|]]; try discriminate. exists y0. split; auto. destruct (F 0%nat y0 eq_refl) as [F1 F2]. split; auto. apply F2. left. auto. }
  destruct (X (fun t => f (t + d))) as (y & E & D & _); [auto|]. exists y. split; auto. split; auto. intros g G. destruct (X g G) as (y' & E' & _ & H'). rewrite E in E'. injection E' as <-. exact H'.
Qed.
(** The values of the delayed tube: those of [x] over the shifted slice, and all the reals when it is not inside the
    domain. *)
Theorem C104_delay_values : forall a b d x, tube_ok a b x -> tube_is_empty x = false ->
  exists y, delay_eval d x = Some y /\ tube_ok a b y /\ forall s t, List.In s x ->
    (s_lb s < t < s_ub s -> eval_t y t = if Rle_dec a (s_lb s + d) then if Rle_dec (s_ub s + d) b then eval_itv x (Itv (Some (s_lb s + d)) (Some (s_ub s + d))) else ALL else ALL) /\
    (t = s_lb s \/ t = s_ub s -> eval_t y t = if Rle_dec a (t + d) then if Rle_dec (t + d) b then eval_t x (t + d) else ALL else ALL).
Proof.
  intros a b d x O NE. destruct (fnc_loop a b 1 (delay_at d [x]) [x]) as (y0 & y & In0 & Ey & Ly & Ny & F); auto using single_slices; [discriminate|cbn; rewrite NE; auto| |].
  { intros u v H1 H2 H3. apply (delay_at_tot a b); auto. }
  cbn in In0. destruct In0 as [<-|[]].
  destruct y as [|y [|]]; try discriminate. exists y. unfold delay_eval. rewrite Ey. split; auto.
  destruct (F 0%nat y eq_refl) as (_ & t & T & _ & _ & _ & E). cbn in T. destruct T as [<-|[]].
  set (V := fun u v => if Rle_dec a (u + d) then if Rle_dec (v + d) b then eval_itv x (Itv (Some (u + d)) (Some (v + d))) else ALL else ALL).
  assert (HV : forall u v, a <= u -> u <= v -> v <= b -> nth 0 (from_opt (delay_at d [x] (Itv (Some u) (Some v)))) Emp = V u v).
  { intros u v H1 H2 H3. unfold V. destruct (Rle_dec a (u + d)) as [A|A]; [destruct (Rle_dec (v + d) b) as [B|B]|].
    - rewrite (delay_at_in a b) by auto. auto.
    - rewrite (delay_at_out a b) by (auto; lra). auto.
    - rewrite (delay_at_out a b) by (auto; lra). auto. }
  assert (WV : forall u v, wf (V u v)).
  { intros u v. unfold V. destruct (Rle_dec a (u + d)); [destruct (Rle_dec (v + d) b)|]; try exact Logic.I. eapply wf_eval_itv; eauto. }
  assert (PV : forall u, a <= u <= b -> V u u = if Rle_dec a (u + d) then if Rle_dec (u + d) b then eval_t x (u + d) else ALL else ALL).
  { intros u U. unfold V. destruct (Rle_dec a (u + d)) as [A|A]; auto. destruct (Rle_dec (u + d) b) as [B|B]; auto.
    destruct (t0_ok _ _ _ O) as [T0 TF]. unfold eval_itv. rewrite T0, TF, !Rltb_f by lra. rewrite Reqb_t by auto. auto. }
  assert (MV : forall u v w, a <= u -> u <= w -> w <= v -> v <= b -> sub (V w w) (V u v)).
  { intros u v w H1 H2 H3 H4. rewrite PV by lra. unfold V. destruct (Rle_dec a (u + d)) as [A|A]; [destruct (Rle_dec (v + d) b) as [B|B]|]; try (intros z _; apply In_ALL).
    rewrite !Rle_dec_t by lra. apply (eval_t_sub_itv a b); auto. lra. }
  assert (N : forall k s, nth_error x k = Some s -> sl x k = s /\ a <= s_lb s /\ s_lb s < s_ub s /\ s_ub s <= b).
  { intros k s Es. pose proof (sl_nth _ _ _ Es) as Q. destruct (Ny k) as (N1 & N2 & N3 & N4); [apply nth_error_Some; congruence|]. rewrite Q in *. auto. }
  assert (L0 : (0 < length x)%nat) by (pose proof (ok_ne _ _ _ O); destruct x; [congruence|cbn; lia]).
  destruct (nth_error x (length x - 1)) as [sz|] eqn:Ez; [|apply nth_error_None in Ez; lia].
  assert (Oy : tube_ok a b y).
  { rewrite E. apply map_loop_ok; auto.
    - intros k s Es. destruct (N k s Es) as (-> & N2 & N3 & N4). unfold s_dom, pt. rewrite !HV by lra. split; auto. split; auto. apply MV; lra.
    - intros k s s' Es Es'. destruct (N k s Es) as (-> & N2 & N3 & N4). destruct (N _ s' Es') as (-> & N2' & N3' & N4').
      pose proof (chain_from_nth _ _ _ _ _ _ (ok_chain _ _ _ O) Es Es') as Hs. unfold s_dom, pt. rewrite !HV by lra. apply MV; lra.
    - destruct (N _ _ Ez) as (-> & N2 & N3 & N4). unfold pt. rewrite HV by lra. auto.
    - destruct (N _ _ Ez) as (-> & N2 & N3 & N4). unfold s_dom, pt. rewrite !HV by lra. apply MV; lra. }
  split; auto. intros s v Is. apply In_nth_error in Is as [k Es]. destruct (N k s Es) as (Sk & N2 & N3 & N4).
  pose proof (map_loop_nth (fun k => nth 0 (from_opt (delay_at d [x] (s_dom (sl x k)))) Emp) (fun k => nth 0 (from_opt (delay_at d [x] (pt (s_lb (sl x k))))) Emp)
                 (nth 0 (from_opt (delay_at d [x] (pt (s_ub (sl x (length x - 1)))))) Emp) x k) as M. rewrite <- E, Es in M. cbn [option_map] in M. rewrite Sk in M.
  unfold s_dom, pt in M. rewrite !HV in M by lra.
  split.
  - intros Hv. rewrite (eval_t_slice a b y k _ v Oy M) by (cbn; lra). rewrite slice_eval_mid by (cbn; lra). reflexivity.
  - intros [->| ->].
    + rewrite <- PV by lra. rewrite (eval_t_slice a b y k _ _ Oy M) by (cbn; lra).
      match goal with |- slice_eval ?z _ = _ => refine (eq_trans (slice_eval_lb z _) _) end; [cbn; lra|]. reflexivity.
    + rewrite <- PV by lra. rewrite (eval_t_slice a b y k _ _ Oy M) by (cbn; lra).
      match goal with |- slice_eval ?z _ = _ => refine (eq_trans (slice_eval_ub z _) _) end; [cbn; lra|]. cbn [s_out].
      destruct (Nat.eqb_spec (Datatypes.S k) (length x)) as [e|e].
      * assert (K' : (length x - 1)%nat = k) by lia. rewrite K', Sk, HV by lra. auto.
      * destruct (nth_error x (Datatypes.S k)) as [p'|] eqn:Ep'; [|apply nth_error_None in Ep'; assert (k < length x)%nat by (apply nth_error_Some; congruence); lia].
        destruct (N _ _ Ep') as (-> & N2' & N3' & N4'). rewrite <- (chain_from_nth _ _ _ _ _ _ (ok_chain _ _ _ O) Es Ep') in *. rewrite HV by lra. auto.
Qed.

(** ** Empty components *)
(** An empty component (at some instant) makes all the results empty at all instants, whatever the slicings. *)
Theorem C104_empty : forall a b n F E x, (0 < n)%nat -> x <> [] -> Forall (tube_ok a b) x -> existsb tube_is_empty x = true ->
  exists y, tfunction_eval F n x = Some y /\ tfnc_eval E n x = Some y /\ length y = n /\ forall u t, List.In u y -> tube_ok a b u /\ (a <= t <= b -> eval_t u t = Emp).
Proof.
  intros a b n F E x Hn Ne O H. exists (map (tube_set Emp) (tv_resize n x)). destruct x as [|x0 r]; [congruence|]. set (x := x0 :: r) in *.
  split; [unfold tfunction_eval; fold x; unfold x at 1; rewrite H; auto|]. split; [unfold tfnc_eval; rewrite H; auto|]. split; [rewrite map_length; apply resize_len; auto|].
  intros u t U. apply in_map_iff in U as (q & <- & Q).
  assert (Oq : tube_ok a b q).
  { rewrite Forall_forall in O. apply resize_in in Q as [Q|(z & Z & ->)]; [auto|]. apply tube_set_ok; [exact Logic.I|auto]. }
  assert (Ou : tube_ok a b (tube_set Emp q)) by (apply tube_set_ok; [exact Logic.I|auto]). split; auto. intros T.
  rewrite (tube_set_eq Emp q Logic.I) in *. destruct (cover _ a b t Ou T) as (k & s & Es & Hs). rewrite (eval_t_slice a b _ k s t Ou Es Hs).
  apply nth_error_In in Es. apply in_map_iff in Es as (s' & <- & _). cbn in Hs. unfold slice_eval. cbn. rewrite !Rleb_t by lra. cbn. destruct (Reqb _ _); auto. destruct (Reqb _ _); auto.
Qed.

(** ** Different slicings *)
(** The loop only tests the slices of the first component: it reads a null pointer when another one has less slices,
    and combines slices of different dates otherwise. *)
Definition second (b : list itv) : list itv := [nth 2 b ALL].
Definition d0 : tube := [mkS 0 1 ALL ALL ALL; mkS 1 2 ALL ALL ALL].
Definition d1 : tube := [mkS 0 (1/2) (I2 0 (1/2)) (I2 0 0) (I2 (1/2) (1/2)); mkS (1/2) 2 (I2 (1/2) 2) (I2 (1/2) (1/2)) (I2 2 2)].
Definition d2 : tube := [mkS 0 2 (I2 0 2) (I2 0 0) (I2 2 2)].
Lemma d0_ok : tube_ok 0 2 d0.
Proof. constructor; [discriminate|cbn; repeat split; lra|cbn; repeat split; reflexivity|repeat (constructor; [repeat split; cbn; auto; lra|]); constructor]. Qed.
Lemma d1_ok : tube_ok 0 2 d1. Proof. tube_ok_tac. Qed.
Lemma d2_ok : tube_ok 0 2 d2. Proof. tube_ok_tac. Qed.
Lemma second_encloses : encloses 1 (fun p => [nth 2 p 0]) second.
Proof.
  split; [reflexivity|]. intros p b H. constructor; [|constructor]. destruct H as [|? ? ? ? _ H]; [exact (In_ALL _)|]. destruct H as [|? ? ? ? _ H]; [exact (In_ALL _)|].
  destruct H as [|? ? ? ? H _]; [exact (In_ALL _)|exact H].
Qed.
Theorem C104_null_refuted : exists a b n f F x xs, (0 < n)%nat /\ x <> [] /\ Forall (tube_ok a b) x /\ encloses n f F /\ Forall2 (fun g t => has t g) xs x /\
  tfunction_eval F n x = None.
Proof.
  exists 0, 2, 1%nat, (fun p => [nth 2 p 0]), second, [d0; d2], [(fun _ => 0); (fun t => t)].
  refine (conj _ (conj _ (conj _ (conj second_encloses (conj _ _))))); [lia|discriminate|repeat (constructor; [first [exact d0_ok|exact d2_ok]|]); constructor| |].
  - constructor; [|constructor; [|constructor]]; [|unfold d2; has_tac].
    intros s [<-|[<-|[]]]; cbn; refine (conj (In_ALL _) (conj (In_ALL _) _)); intros; apply In_ALL.
  - reflexivity.
Qed.
Theorem C104_slicing_refuted : exists a b n f F x xs y u t i, (0 < n)%nat /\ x <> [] /\ Forall (tube_ok a b) x /\ encloses n f F /\ Forall2 (fun g t => has t g) xs x /\
  tfunction_eval F n x = Some y /\ nth_error y i = Some u /\ a < t < b /\ ~ In (image f xs i t) (eval_t u t).
Proof.
  exists 0, 2, 1%nat, (fun p => [nth 2 p 0]), second, [d0; d1], [(fun _ => 0); (fun t => t)].
  eexists _, _, (3/4), 0%nat.
  refine (conj _ (conj _ (conj _ (conj second_encloses (conj _ (conj _ (conj _ (conj _ _)))))))); [lia|discriminate|repeat (constructor; [first [exact d0_ok|exact d1_ok]|]); constructor| | | |lra|].
  - constructor; [|constructor; [|constructor]]; [|unfold d1; has_tac].
    intros s [<-|[<-|[]]]; cbn; refine (conj (In_ALL _) (conj (In_ALL _) _)); intros; apply In_ALL.
  - cbn. reflexivity.
  - cbn. reflexivity.
  - unfold image, eval_t, slice_at. cbn. reval. unfold slice_eval. cbn. reval. unfold I2. cbn. lra.
Qed.

(** ** Concrete cases *)
(** (t, x1, ..) -> (t + x1 + .., 1, t + x1 + ..) *)
Definition sumR (p : list R) : list R := [fold_right Rplus 0 p; 1; fold_right Rplus 0 p].
Definition sumI (b : list itv) : list itv := [fold_right xadd (pt 0) b; pt 1; fold_right xadd (pt 0) b].
Lemma sum_in p b : Forall2 In p b -> In (fold_right Rplus 0 p) (fold_right xadd (pt 0) b).
Proof.
  induction 1 as [|v i p b H _ IH]; cbn [fold_right]; [cbn; lra|]. destruct i as [|l h], (fold_right xadd (pt 0) b) as [|l' h']; try contradiction.
  cbn in *. destruct H, IH. destruct l, h, l', h'; cbn in *; split; auto; lra.
Qed.
Lemma sum_wf b : Forall wf b -> wf (fold_right xadd (pt 0) b).
Proof.
  induction 1 as [|i b H _ IH]; cbn [fold_right]; [cbn; lra|]. destruct i as [|[l|] [h|]], (fold_right xadd (pt 0) b) as [|[l'|] [h'|]]; cbn in *; auto; lra.
Qed.
Lemma xadd_sub i j k l : wf i -> wf j -> wf k -> wf l -> sub i j -> sub k l -> sub (xadd i k) (xadd j l).
Proof.
  intros Wi Wj Wk Wl A B. apply sub_is_subset in A; auto. apply sub_is_subset in B; auto. apply is_subset_sub. unfold is_subset in *.
  destruct i as [|a1 a2], j as [|b1 b2], k as [|c1 c2], l as [|e1 e2]; cbn in *; auto; try discriminate.
  destruct a1, a2, b1, b2, c1, c2, e1, e2; cbn in *; auto; try discriminate;
  repeat match goal with H : _ && _ = true |- _ => apply andb_true_iff in H as [? ?] | H : Rleb _ _ = true |- _ => apply Rleb_true in H | H : (if Rle_dec _ _ then _ else _) = true |- _ => destruct (Rle_dec _ _); [|discriminate] end;
  rewrite ?andb_true_iff, ?Rleb_true; auto; try lra; repeat split; auto; try lra.
Qed.
Lemma sum_sub b c : Forall wf b -> Forall wf c -> Forall2 sub b c -> sub (fold_right xadd (pt 0) b) (fold_right xadd (pt 0) c).
Proof.
  intros Wb Wc H. induction H as [|i j b c H _ IH]; cbn [fold_right]; [intros z; auto|]. inversion Wb as [|? ? Wi Wb']; inversion Wc as [|? ? Wj Wc']; subst.
  apply xadd_sub; auto using sum_wf.
Qed.
Lemma sum_encloses : encloses 3 sumR sumI.
Proof. split; [reflexivity|]. intros p b H. repeat (apply Forall2_cons); [apply sum_in; auto|cbn; lra|apply sum_in; auto|constructor]. Qed.
Lemma sum_isotonic : isotonic sumI.
Proof.
  split.
  - intros b W. repeat (apply Forall_cons); [apply sum_wf; auto|cbn; lra|apply sum_wf; auto|constructor].
  - intros b c Wb Wc H. repeat (apply Forall2_cons); [apply sum_sub; auto|intros z; auto|apply sum_sub; auto|constructor].
Qed.
Lemma AA_slices : same_slices [tA; tA].
Proof. intros t u [<-|[<-|[]]] [<-|[<-|[]]]; reflexivity. Qed.
Example C104_function_ex : exists y, tfunction_eval sumI 3 [tA; tA] = Some y /\ length y = 3%nat /\
  forall i u, nth_error y i = Some u -> has u (image sumR [fA; fA] i) /\ forall t, List.In t [tA; tA] -> same_dom u t.
Proof.
  apply (C104_function_partial 0 2); [lia|discriminate|repeat (apply Forall_cons; [exact tA_ok|]); apply Forall_nil|exact AA_slices|exact sum_encloses|].
  constructor; [apply tA_fA|constructor; [apply tA_fA|constructor]].
Qed.
Example C104_values_ex : exists y u, tfunction_eval sumI 3 [tA; tA] = Some y /\ nth_error y 2 = Some u /\ tube_ok 0 2 u /\ eval_t u (1/2) = I2 0 5 /\ eval_t u 1 = I2 3 5.
Proof.
  destruct (C104_values 0 2 3 sumI [tA; tA]) as (y & E & L & F); [lia|discriminate|repeat (apply Forall_cons; [exact tA_ok|]); apply Forall_nil|exact AA_slices|reflexivity|exact sum_isotonic|reflexivity|].
  destruct (nth_error y 2) as [u|] eqn:U; [|apply nth_error_None in U; lia]. exists y, u. destruct (F 2%nat u U) as [O V]. refine (conj E (conj U (conj O _))).
  destruct (V tA (mkS 0 1 (I2 0 2) (I2 0 1) (I2 1 2)) (1/2)) as [V1 _]; [left; auto|left; auto|].
  destruct (V tA (mkS 0 1 (I2 0 2) (I2 0 1) (I2 1 2)) 1) as [_ V2]; [left; auto|left; auto|]. split.
  - rewrite V1 by (cbn; lra). unfold eval_t, slice_at, tA. cbn. reval. unfold slice_eval. cbn. reval. unfold I2. f_equal; f_equal; lra.
  - rewrite V2 by (cbn; lra). unfold eval_t, slice_at, tA. cbn. reval. unfold slice_eval. cbn. reval. unfold I2. f_equal; f_equal; lra.
Qed.
Example C104_fnc_ex : exists y, tfnc_eval (fun t => Some [t; xadd t (pt 1)]) 2 [tA] = Some y /\ length y = 2%nat /\
  forall i u, nth_error y i = Some u -> has u (fun t => t + INR i) /\ forall t, List.In t (tv_resize 2 [tA]) -> same_dom u t.
Proof.
  apply (C104_fnc 0 2 2 (fun t => Some [t; xadd t (pt 1)]) [tA] (fun i t => t + INR i)); [lia|discriminate|repeat (apply Forall_cons; [exact tA_ok|]); apply Forall_nil| |reflexivity|].
  - intros t u [<-|[<-|[]]] [<-|[<-|[]]]; try reflexivity; unfold same_dom; rewrite ?tube_set_dom; reflexivity.
  - intros u v _ H _. eexists. split; [reflexivity|]. split; [reflexivity|]. intros [|[|i]] t Hi Ht; [cbn; lra|cbn; lra|lia].
Qed.
(** delays of 1/2, in advance and late *)
Example C104_delay_ex : exists y z, delay_eval (1/2) tA = Some y /\ has y (fun t => t + 1) /\ delay_eval (- (1/2)) tA = Some z /\ has z (fun t => t).
Proof.
  destruct (C104_delay 0 2 (1/2) tA fA tA_ok tA_fA) as (y & E & _ & H). destruct (C104_delay 0 2 (-(1/2)) tA fA tA_ok tA_fA) as (z & E' & _ & H').
  exists y, z. refine (conj E (conj _ (conj E' _))); [apply H|apply H']; intros t _ _; unfold fA; lra.
Qed.
Example C104_delay_values_ex : exists y, delay_eval (1/2) tA = Some y /\ eval_t y (1/2) = I2 0 3 /\ eval_t y 0 = I2 0 2 /\ eval_t y 1 = I2 1 3 /\ eval_t y (3/2) = ALL /\ eval_t y 2 = ALL.
Proof.
  destruct (C104_delay_values 0 2 (1/2) tA tA_ok eq_refl) as (y & E & O & V). exists y. split; auto.
  set (s0 := mkS 0 1 (I2 0 2) (I2 0 1) (I2 1 2)) in *. set (s1 := mkS 1 2 (I2 1 3) (I2 1 2) (I2 2 3)) in *.
  assert (H0 : List.In s0 tA) by (left; auto). assert (H1 : List.In s1 tA) by (right; left; auto).
  split; [|split; [|split; [|split]]].
  - rewrite (proj1 (V s0 (1/2) H0)) by (cbn; lra). cbn [s_lb s_ub s0]. unfold eval_itv, tA. cbn. reval. unfold hull, I2; cbn; reval; f_equal; f_equal; lra.
  - rewrite (proj2 (V s0 0 H0)) by (cbn; lra). reval. unfold eval_t, slice_at, tA. cbn. reval. unfold slice_eval. cbn. reval. auto.
  - rewrite (proj2 (V s0 1 H0)) by (cbn; lra). reval. unfold eval_t, slice_at, tA. cbn. reval. unfold slice_eval. cbn. reval. auto.
  - rewrite (proj1 (V s1 (3/2) H1)) by (cbn; lra). cbn [s_lb s_ub s1]. reval. auto.
  - rewrite (proj2 (V s1 2 H1)) by (cbn; lra). reval. auto.
Qed.
Example C104_empty_ex : exists y, tfunction_eval sumI 3 [tA; tube_set Emp tB] = Some y /\ tfnc_eval (fun _ => None) 3 [tA; tube_set Emp tB] = Some y /\ length y = 3%nat /\
  forall u t, List.In u y -> tube_ok 0 2 u /\ (0 <= t <= 2 -> eval_t u t = Emp).
Proof.
  apply C104_empty; [lia|discriminate|apply Forall_cons; [exact tA_ok|apply Forall_cons; [apply tube_set_ok; [exact Logic.I|exact tB_ok]|constructor]]|].
  rewrite (tube_set_eq Emp tB Logic.I). reflexivity.
Qed.

Print Assumptions C104_empty.
Print Assumptions C104_function_partial.
Print Assumptions C104_values.
Print Assumptions C104_fnc.
Print Assumptions C104_delay.
Print Assumptions C104_delay_values.
Print Assumptions C104_null_refuted.
Print Assumptions C104_slicing_refuted.
