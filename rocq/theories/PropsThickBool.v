(** * C74: thick booleans and the tests that combine thick sets *)

From Coq Require Import Reals ZArith Lia Bool List.
Import ListNotations.
From Verif Require Import Itv Thick.

(** ** Specification *)
(** A thick set is a set known between an inner and an outer set.  A point is surely outside, in the
    penumbra, or surely inside. *)
Inductive stat := sOut | sPen | sIn.
(** The statuses a thick boolean stands for: the comments of codac_ThickBoolean.h, lines 19-25. *)
Definition sem (v : tb) (s : stat) : Prop :=
  match v with
  | TOut => s = sOut | TIn => s = sIn | TMaybe => s = sPen
  | TMaybeOut => s = sOut \/ s = sPen | TMaybeIn => s = sPen \/ s = sIn
  | TUnk => True | TEmpty => False
  end.
(** [b] says whether the point belongs to one of the sets compatible with the thick set. *)
Definition poss (s : stat) (b : bool) : Prop :=
  match s with sIn => b = true | sOut => b = false | sPen => True end.
(** The status of a point for the set computed by [f] from sets with statuses [ss]. *)
Definition status_of (f : list bool -> bool) (ss : list stat) (s : stat) : Prop :=
  match s with
  | sIn => forall bs, Forall2 poss ss bs -> f bs = true
  | sOut => forall bs, Forall2 poss ss bs -> f bs = false
  | sPen => (exists bs, Forall2 poss ss bs /\ f bs = true) /\ (exists bs, Forall2 poss ss bs /\ f bs = false)
  end.
Definition status2 (f : bool -> bool -> bool) (s1 s2 s : stat) : Prop :=
  status_of (fun bs => match bs with [a; b] => f a b | _ => false end) [s1; s2] s.
Definition status1 (f : bool -> bool) (s1 s : stat) : Prop :=
  status_of (fun bs => match bs with [a] => f a | _ => false end) [s1] s.
(** Number of sets that contain the point. *)
Definition trues (bs : list bool) : Z := Z.of_nat (length (filter (fun b => b) bs)).
(** The union of the sets of statuses fits in one thick boolean. *)
Definition tsub (u v : tb) : Prop := forall s, sem u s -> sem v s.

(** ** Proofs *)
Lemma choice ss : exists bs, Forall2 poss ss bs.
Proof.
  induction ss as [|s ss [bs H]]; [exists []; constructor|].
  destruct s; [exists (false :: bs)|exists (true :: bs)|exists (true :: bs)]; constructor; cbn; auto.
Qed.
Lemma status_unique f ss s s' : status_of f ss s -> status_of f ss s' -> s = s'.
Proof.
  destruct (choice ss) as [b0 H0].
  destruct s, s'; cbn; auto; intros A B; exfalso.
  - destruct B as [(c & Hc & Ec) _]. rewrite (A _ Hc) in Ec. discriminate.
  - specialize (A _ H0). specialize (B _ H0). congruence.
  - destruct A as [(c & Hc & Ec) _]. rewrite (B _ Hc) in Ec. discriminate.
  - destruct A as [_ (c & Hc & Ec)]. rewrite (B _ Hc) in Ec. discriminate.
  - specialize (A _ H0). specialize (B _ H0). congruence.
  - destruct B as [_ (c & Hc & Ec)]. rewrite (A _ Hc) in Ec. discriminate.
Qed.

(** Computable statuses *)
Definition knot (s : stat) : stat := match s with sOut => sIn | sPen => sPen | sIn => sOut end.
Definition kand (s t : stat) : stat :=
  match s, t with sOut, _ | _, sOut => sOut | sIn, sIn => sIn | _, _ => sPen end.
Definition kor (s t : stat) : stat :=
  match s, t with sIn, _ | _, sIn => sIn | sOut, sOut => sOut | _, _ => sPen end.

Ltac inv2 := repeat match goal with
  | H : Forall2 _ (_ :: _) _ |- _ => inversion H; clear H; subst
  | H : Forall2 _ [] _ |- _ => inversion H; clear H; subst
  end.
Ltac wit b := exists b; split; [solve [repeat (apply Forall2_cons || apply Forall2_nil); cbn; auto]|reflexivity].

Lemma status1_not s : status1 negb s (knot s).
Proof.
  destruct s; cbn.
  - intros bs H. inv2. cbn in *. subst. reflexivity.
  - split; [wit [false]|wit [true]].
  - intros bs H. inv2. cbn in *. subst. reflexivity.
Qed.
Ltac s2 := intros s t; destruct s, t; cbn;
  first [intros bs H; inv2; cbn in *; subst; repeat match goal with b : bool |- _ => destruct b end; reflexivity
        |split; [first [wit [true; true]|wit [true; false]|wit [false; true]|wit [false; false]]
                |first [wit [true; true]|wit [true; false]|wit [false; true]|wit [false; false]]]].
Lemma status2_and : forall s t, status2 andb s t (kand s t).
Proof. s2. Qed.
Lemma status2_or : forall s t, status2 orb s t (kor s t).
Proof. s2. Qed.
Lemma status2_diff : forall s t, status2 (fun a b => a && negb b) s t (kand s (knot t)).
Proof. s2. Qed.
Lemma status2_xor : forall s t, status2 xorb s t (kor (kand s (knot t)) (kand t (knot s))).
Proof. s2. Qed.

Ltac fin := intros; repeat match goal with v : tb |- _ => destruct v end;
  repeat match goal with s : stat |- _ => destruct s end; cbn in *;
  repeat match goal with H : _ \/ _ |- _ => destruct H end; try discriminate; try contradiction; auto.

Lemma k_not v s : sem v s -> sem (opNot v) (knot s).
Proof. fin. Qed.
Lemma k_and v w s t : sem v s -> sem w t -> sem (opAnd v w) (kand s t).
Proof. fin. Qed.
Lemma k_or v w s t : sem v s -> sem w t -> sem (opOr v w) (kor s t).
Proof. fin. Qed.
Lemma k_xor v w s t : sem v s -> sem w t -> sem (opXor v w) (kor (kand s (knot t)) (kand t (knot s))).
Proof. fin. Qed.

(** ** C74: each connective encloses the status of the point *)
Theorem C74_not : forall v s s', sem v s -> status1 negb s s' -> sem (opNot v) s'.
Proof. intros v s s' H A. rewrite (status_unique _ _ _ _ A (status1_not s)). apply k_not; auto. Qed.
Theorem C74_and : forall v w s t r, sem v s -> sem w t -> status2 andb s t r -> sem (opAnd v w) r.
Proof. intros v w s t r H K A. rewrite (status_unique _ _ _ _ A (status2_and s t)). apply k_and; auto. Qed.
Theorem C74_or : forall v w s t r, sem v s -> sem w t -> status2 orb s t r -> sem (opOr v w) r.
Proof. intros v w s t r H K A. rewrite (status_unique _ _ _ _ A (status2_or s t)). apply k_or; auto. Qed.
Theorem C74_restrict : forall v w s t r, sem v s -> sem w t -> status2 (fun a b => a && negb b) s t r -> sem (opRestrict v w) r.
Proof.
  intros v w s t r H K A. rewrite (status_unique _ _ _ _ A (status2_diff s t)). apply k_and; auto. apply k_not; auto.
Qed.
Theorem C74_xor : forall v w s t r, sem v s -> sem w t -> status2 xorb s t r -> sem (opXor v w) r.
Proof. intros v w s t r H K A. rewrite (status_unique _ _ _ _ A (status2_xor s t)). apply k_xor; auto. Qed.

(** The disjunction is also the smallest: each status of the answer is the status of some point. *)
Theorem C74_or_exact : forall v w r, sem (opOr v w) r -> exists s t, sem v s /\ sem w t /\ status2 orb s t r.
Proof.
  intros v w r H.
  assert (exists s t, sem v s /\ sem w t /\ kor s t = r) as (s & t & A & B & <-).
  { destruct v, w, r; cbn in H; repeat match goal with K : _ \/ _ |- _ => destruct K end; try discriminate; try contradiction;
    first [exists sOut, sOut; cbn; tauto|exists sOut, sPen; cbn; tauto|exists sOut, sIn; cbn; tauto
          |exists sPen, sOut; cbn; tauto|exists sPen, sPen; cbn; tauto|exists sPen, sIn; cbn; tauto
          |exists sIn, sOut; cbn; tauto|exists sIn, sPen; cbn; tauto|exists sIn, sIn; cbn; tauto]. }
  exists s, t. split; auto. split; auto. apply status2_or.
Qed.
(** The conjunction is not: [0,1] and [?] give [0,1], although no point is surely inside. *)
Theorem C74_and_exact_refuted : exists v w r, sem (opAnd v w) r /\
  ~ exists s t, sem v s /\ sem w t /\ status2 andb s t r.
Proof.
  exists TUnk, TMaybe, sIn. split; [exact I|]. intros (s & t & _ & -> & A).
  pose proof (status_unique _ _ _ _ A (status2_and s sPen)) as E. destruct s; discriminate.
Qed.
(** The exclusive or either: inside one set and outside the other gives [0,1] instead of [1]. *)
Theorem C74_xor_exact_refuted : exists v w r, sem (opXor v w) r /\
  ~ exists s t, sem v s /\ sem w t /\ status2 xorb s t r.
Proof.
  exists TIn, TOut, sOut. split; [exact I|]. intros (s & t & -> & -> & A).
  pose proof (status_unique _ _ _ _ A (status2_xor sIn sOut)) as E. discriminate.
Qed.

(** Two answers about one point: the intersection keeps the common statuses. *)
Theorem C74_inter : forall v w s, sem v s -> sem w s -> sem (opInter v w) s.
Proof. fin. Qed.
(** Answers about two points: the union is the smallest thick boolean with both. *)
Theorem C74_union : forall v w s, sem v s \/ sem w s -> sem (opUnion v w) s.
Proof. fin. Qed.
Theorem C74_union_least : forall v w u, tsub v u -> tsub w u -> tsub (opUnion v w) u.
Proof.
  intros v w u A B s. pose proof (A sOut). pose proof (A sPen). pose proof (A sIn).
  pose proof (B sOut). pose proof (B sPen). pose proof (B sIn). clear A B.
  destruct v, w; try (intros K; cbn in K; contradiction); destruct u, s; cbn in *; try solve [auto]; try (intuition discriminate).
Qed.
(** The other intersection loses the status of a point: [0,?] and [0] give the empty set. *)
Theorem C74_thick_inter_refuted : exists v w s, sem v s /\ sem w s /\ ~ sem (opThickInter v w) s.
Proof. exists TMaybeOut, TOut, sOut. cbn. auto. Qed.
Theorem C74_thick_inter_comm_refuted : exists v w, opThickInter v w <> opThickInter w v.
Proof. exists TMaybeOut, TOut. discriminate. Qed.
(** What holds: if the first answer is one of [1], [?], [?,1]. *)
Theorem C74_thick_inter_partial : forall v w s, can_be_inside v = true -> sem v s -> sem w s -> sem (opThickInter v w) s.
Proof. fin. Qed.

(** [is_singleton]: at most one status. *)
Theorem C74_singleton : forall v, is_singleton v = true <-> (forall s t, sem v s -> sem v t -> s = t).
Proof.
  intros v. split.
  - intros H s t. revert H. destruct v, s, t; cbn; auto; intros; try discriminate; intuition discriminate.
  - intros H. destruct v; cbn; auto; exfalso.
    + specialize (H sOut sPen). cbn in H. intuition discriminate.
    + specialize (H sPen sIn). cbn in H. intuition discriminate.
    + specialize (H sOut sPen). cbn in H. intuition discriminate.
Qed.
(** Outer and inner sets: the penumbra counts as inside, resp. outside. *)
Theorem C74_upper : forall v s, sem v s -> sem (opUpper v) (match s with sPen => sIn | _ => s end).
Proof. fin. Qed.
Theorem C74_lower : forall v s, sem v s -> sem (opLower v) (match s with sPen => sOut | _ => s end).
Proof. fin. Qed.
(** Answers about the inner and the outer set of a thick set (crisp sets, the inner one in the outer one). *)
Theorem C74_sup_sub : forall i o (ins outs : bool), (ins = true -> outs = true) ->
  i = TOut \/ i = TIn \/ i = TUnk -> o = TOut \/ o = TIn \/ o = TUnk ->
  sem i (if ins then sIn else sOut) -> sem o (if outs then sIn else sOut) ->
  sem (opSupSub i o) (if ins then sIn else if outs then sPen else sOut).
Proof.
  intros i o ins outs H A B. destruct A as [E|[E|E]], B as [F|[F|F]], ins, outs; subst i o; cbn; auto; try discriminate; intros; try discriminate; auto;
    specialize (H eq_refl); discriminate.
Qed.

(** ** Lists of tests *)
Definition kall (ss : list stat) : stat := fold_right kand sIn ss.
Definition kex (ss : list stat) : stat := fold_right kor sOut ss.
Definition allb (bs : list bool) : bool := forallb (fun b => b) bs.
Definition anyb (bs : list bool) : bool := existsb (fun b => b) bs.

Lemma status_all ss : status_of allb ss (kall ss).
Proof.
  induction ss as [|s ss IH]; [cbn; intros bs H; inv2; reflexivity|].
  cbn [kall fold_right]. fold (kall ss). destruct (choice ss) as [b0 H0].
  destruct s, (kall ss); cbn in *.
  - intros bs H. inv2. cbn in *. subst. reflexivity.
  - intros bs H. inv2. cbn in *. subst. reflexivity.
  - intros bs H. inv2. cbn in *. subst. reflexivity.
  - intros bs H. inversion H as [|? b ? l' Hb Hl]; subst. cbn. fold (allb l'). rewrite (IH _ Hl). apply andb_false_r.
  - destruct IH as [(c & Hc & Ec) (d & Hd & Ed)]. split; [exists (true :: c)|exists (true :: d)]; (split; [constructor; cbn; auto|auto]).
  - split; [exists (true :: b0)|exists (false :: b0)]; (split; [constructor; cbn; auto|cbn; try reflexivity; try (apply IH; auto)]).
  - intros bs H. inversion H as [|? b ? l' Hb Hl]; subst. cbn. fold (allb l'). rewrite (IH _ Hl). apply andb_false_r.
  - destruct IH as [(c & Hc & Ec) (d & Hd & Ed)]. split; [exists (true :: c)|exists (true :: d)]; (split; [constructor; cbn; auto|auto]).
  - intros bs H. inv2. cbn in *. subst. apply IH; auto.
Qed.
Lemma status_ex ss : status_of anyb ss (kex ss).
Proof.
  induction ss as [|s ss IH]; [cbn; intros bs H; inv2; reflexivity|].
  cbn [kex fold_right]. fold (kex ss). destruct (choice ss) as [b0 H0].
  destruct s, (kex ss); cbn in *.
  - intros bs H. inv2. cbn in *. subst. apply IH; auto.
  - destruct IH as [(c & Hc & Ec) (d & Hd & Ed)]. split; [exists (false :: c)|exists (false :: d)]; (split; [constructor; cbn; auto|auto]).
  - intros bs H. inv2. cbn in *. subst. apply IH; auto.
  - split; [exists (true :: b0)|exists (false :: b0)]; (split; [constructor; cbn; auto|cbn; try reflexivity; try (apply IH; auto)]).
  - destruct IH as [(c & Hc & Ec) (d & Hd & Ed)]. split; [exists (false :: c)|exists (false :: d)]; (split; [constructor; cbn; auto|auto]).
  - intros bs H. inversion H as [|? b ? l' Hb Hl]; subst. cbn. fold (anyb l'). rewrite (IH _ Hl). apply orb_true_r.
  - intros bs H. inv2. cbn in *. subst. reflexivity.
  - intros bs H. inv2. cbn in *. subst. reflexivity.
  - intros bs H. inv2. cbn in *. subst. reflexivity.
Qed.
Lemma kand_fold ss : forall s, fold_left kand ss s = kand s (kall ss).
Proof.
  induction ss as [|t ss IH]; intros s; cbn; [destruct s; reflexivity|]. rewrite IH. fold (kall ss). destruct s, t, (kall ss); reflexivity.
Qed.
Lemma kor_fold ss : forall s, fold_left kor ss s = kor s (kex ss).
Proof.
  induction ss as [|t ss IH]; intros s; cbn; [destruct s; reflexivity|]. rewrite IH. fold (kex ss). destruct s, t, (kex ss); reflexivity.
Qed.

Theorem C74_test_and : forall vs ss v r, Forall2 sem vs ss -> test_and vs = Some v -> status_of allb ss r -> sem v r.
Proof.
  intros vs ss v r H E A. rewrite (status_unique _ _ _ _ A (status_all ss)). clear A r.
  destruct H as [|v0 s0 vs ss H0 H]; [discriminate|]. injection E as <-.
  change (kall (s0 :: ss)) with (kand s0 (kall ss)). rewrite <- kand_fold. revert v0 s0 H0.
  induction H as [|w t vs ss Hw H IH]; intros v0 s0 H0; cbn; auto. apply IH. apply k_and; auto.
Qed.
Theorem C74_test_or : forall vs ss v r, Forall2 sem vs ss -> test_or vs = Some v -> status_of anyb ss r -> sem v r.
Proof.
  intros vs ss v r H E A. rewrite (status_unique _ _ _ _ A (status_ex ss)). clear A r.
  destruct H as [|v0 s0 vs ss H0 H]; [discriminate|]. injection E as <-.
  change (kex (s0 :: ss)) with (kor s0 (kex ss)). revert v0 s0 H0.
  induction H as [|w t vs ss Hw H IH]; intros v0 s0 H0; cbn [or_loop]; [destruct s0; exact H0|].
  change (kex (t :: ss)) with (kor t (kex ss)). pose proof (k_or _ _ _ _ H0 Hw) as K.
  assert (Ek : kor s0 (kor t (kex ss)) = kor (kor s0 t) (kex ss)) by (destruct s0, t, (kex ss); reflexivity).
  rewrite Ek. cbv zeta. destruct (teqb (opOr v0 w) TIn) eqn:E; [|apply IH; auto].
  assert (F : opOr v0 w = TIn) by (destruct (opOr v0 w); cbn in E; auto; discriminate). rewrite F in *. change (kor s0 t = sIn) in K. rewrite K. reflexivity.
Qed.
Theorem C74_test_inter : forall vs v s, (forall w, List.In w vs -> sem w s) -> test_inter vs = Some v -> sem v s.
Proof.
  intros [|v0 vs] v s H E; [discriminate|]. injection E as <-.
  assert (H0 : sem v0 s) by (apply H; left; auto). assert (H1 : forall w, List.In w vs -> sem w s) by (intros; apply H; right; auto). clear H.
  revert v0 H0. induction vs as [|w vs IH]; intros v0 H0; cbn; auto. apply IH; [intros; apply H1; right; auto|].
  apply C74_inter; auto. apply H1. left; auto.
Qed.

(** ** The relaxed intersection *)
Definition n_in (ss : list stat) : Z := fold_right (fun s n => (match s with sIn => 1 | _ => 0 end) + n)%Z 0%Z ss.
Definition n_pos (ss : list stat) : Z := fold_right (fun s n => (match s with sOut => 0 | _ => 1 end) + n)%Z 0%Z ss.
Definition kq (q : Z) (ss : list stat) : stat :=
  if Z.leb q (n_in ss) then sIn else if Z.leb q (n_pos ss) then sPen else sOut.

Lemma trues_cons b bs : trues (b :: bs) = ((if b then 1 else 0) + trues bs)%Z.
Proof. unfold trues. destruct b; cbn [filter length]; lia. Qed.
Lemma trues_bounds ss bs : Forall2 poss ss bs -> (n_in ss <= trues bs <= n_pos ss)%Z.
Proof.
  induction 1 as [|s b ss bs H K IH]; [cbn; lia|]. rewrite trues_cons. cbn [n_in n_pos fold_right]. fold (n_in ss) (n_pos ss).
  destruct s, b; cbn in H; try discriminate; lia.
Qed.
Lemma trues_lo ss : exists bs, Forall2 poss ss bs /\ trues bs = n_in ss.
Proof.
  induction ss as [|s ss (bs & H & E)]; [exists []; split; [constructor|reflexivity]|].
  exists ((match s with sIn => true | _ => false end) :: bs). split; [constructor; auto; destruct s; cbn; auto|].
  rewrite trues_cons, E. cbn. fold (n_in ss). destruct s; lia.
Qed.
Lemma trues_hi ss : exists bs, Forall2 poss ss bs /\ trues bs = n_pos ss.
Proof.
  induction ss as [|s ss (bs & H & E)]; [exists []; split; [constructor|reflexivity]|].
  exists ((match s with sOut => false | _ => true end) :: bs). split; [constructor; auto; destruct s; cbn; auto|].
  rewrite trues_cons, E. cbn. fold (n_pos ss). destruct s; lia.
Qed.
Lemma status_q q ss : status_of (fun bs => Z.leb q (trues bs)) ss (kq q ss).
Proof.
  unfold kq. destruct (Z.leb_spec q (n_in ss)) as [A|A]; [intros bs H; apply trues_bounds in H; apply Z.leb_le; lia|].
  destruct (Z.leb_spec q (n_pos ss)) as [B|B].
  - split.
    + destruct (trues_hi ss) as (bs & H & E). exists bs. split; auto. apply Z.leb_le. lia.
    + destruct (trues_lo ss) as (bs & H & E). exists bs. split; auto. apply Z.leb_gt. lia.
  - intros bs H. apply trues_bounds in H. apply Z.leb_gt. lia.
Qed.
Lemma q_fold vs ss : Forall2 sem vs ss -> forall a b c d n m, (a <= n <= b)%Z -> (c <= m <= d)%Z -> (n <= m)%Z ->
  exists a' b' c' d', fold_left q_step vs ((a, b), (c, d)) = ((a', b'), (c', d')) /\
    (a' <= n_in ss + n <= b')%Z /\ (c' <= n_pos ss + m <= d')%Z /\ (n_in ss + n <= n_pos ss + m)%Z.
Proof.
  induction 1 as [|v s vs ss H K IH]; intros a b c d n m A B C; [exists a, b, c, d; cbn; repeat split; lia|].
  cbn [fold_left n_in n_pos fold_right]. fold (n_in ss) (n_pos ss).
  destruct v, s; cbn in H; repeat match goal with H : _ \/ _ |- _ => destruct H end; try discriminate; try contradiction; cbn [q_step];
    match goal with |- exists _ _ _ _, fold_left _ _ (?p, ?q, (?r, ?t)) = _ /\ (_ <= (?i + _) + _ <= _)%Z /\ (_ <= (?j + _) + _ <= _)%Z /\ _ =>
      destruct (IH p q r t (n + i)%Z (m + j)%Z) as (a' & b' & c' & d' & E & P & Q & T); try lia; exists a', b', c', d'; split; [exact E|lia] end.
Qed.

Theorem C74_test_qinter : forall q vs ss r, Forall2 sem vs ss ->
  status_of (fun bs => Z.leb q (trues bs)) ss r -> sem (test_qinter q vs) r.
Proof.
  intros q vs ss r H A. rewrite (status_unique _ _ _ _ A (status_q q ss)). clear A r.
  destruct (q_fold _ _ H 0 0 0 0 0 0)%Z as (a & b & c & d & E & P & Q & T); try lia.
  unfold test_qinter. rewrite E. unfold kq, z_subset. cbv zeta.
  set (n := n_in ss) in *. set (m := n_pos ss) in *.
  destruct (Z.leb_spec q n), (Z.leb_spec q m); try lia;
    repeat match goal with |- context [Z.leb ?x ?y] => destruct (Z.leb_spec x y) end;
    repeat match goal with |- context [Z.ltb ?x ?y] => destruct (Z.ltb_spec x y) end; cbn; auto; try lia.
Qed.
(** An answer EMPTY (a conflict) is not seen by the relaxed intersection: it counts as OUT. *)
Theorem C74_qinter_empty_refuted : exists q vs, List.In TEmpty vs /\ (exists s, sem (test_qinter q vs) s).
Proof. exists 1%Z, [TIn; TEmpty]. split; [right; left; auto|]. exists sIn. reflexivity. Qed.

(** ** Examples *)
(** Three sets: the point is in the first one, in the penumbra of the second one, out of the third one. *)
Example C74_ex : let vs := [TIn; TMaybeIn; TOut] in let ss := [sIn; sPen; sOut] in
  Forall2 sem vs ss /\ test_and vs = Some TOut /\ test_or vs = Some TIn /\
  test_qinter 1 vs = TIn /\ test_qinter 2 vs = TMaybeIn /\ test_qinter 3 vs = TOut /\
  status_of allb ss sOut /\ status_of anyb ss sIn /\ status_of (fun bs => Z.leb 2 (trues bs)) ss sPen.
Proof.
  cbv zeta. refine (conj _ (conj eq_refl (conj eq_refl (conj eq_refl (conj eq_refl (conj eq_refl (conj _ (conj _ _)))))))).
  - repeat (constructor; cbn; auto).
  - apply (status_all [sIn; sPen; sOut]).
  - apply (status_ex [sIn; sPen; sOut]).
  - apply (status_q 2 [sIn; sPen; sOut]).
Qed.
Example C74_ex_bin : opAnd TMaybeIn TMaybeOut = TMaybeOut /\ opOr TMaybeOut TMaybe = TMaybe /\ opNot TMaybeIn = TMaybeOut /\
  opXor TMaybe TIn = TMaybeOut /\ opRestrict TIn TMaybeOut = TMaybeIn /\ opUnion TOut TMaybe = TMaybeOut /\
  opInter TMaybeIn TIn = TIn /\ test_inter [TUnk; TMaybeIn; TIn] = Some TIn /\ opSupSub TOut TUnk = TMaybeOut.
Proof. repeat split. Qed.

Print Assumptions C74_test_and.
Print Assumptions C74_test_or.
Print Assumptions C74_test_qinter.
