(** * C103: conversions between codac and codac2 tubes *)

From Coq Require Import Reals Lra Lia Bool List Arith.
From Verif Require Import Itv Tube TubeOps TubeSpec TubeFacts TubeOpsFacts TubeOpsFacts2 TubeQueries TubeQueries2 ConvertFacts Concrete.
From Verif Require Import PicardFacts.
From Verif Require Import Codac2 PropsTDomain PropsTube2 Convert.
Import ListNotations.
Open Scope R_scope.

(** ** Specification *)
(** [v] is a possible value at [t]: it is in all the TSlices that contain [t] *)
Definition at2 (d : list tslice) (t v : R) : Prop := forall s, List.In s d -> In t (ts_t s) -> In v (ts_x s).

(** ** Chains of TSlices *)
Fixpoint chain2 (a : R) (d : list tslice) (b : R) : Prop :=
  match d with
  | [] => a = b
  | s :: r => exists c, ts_t s = Itv (Some a) (Some c) /\ a <= c /\ chain2 c r b
  end.
Lemma ch_in b d : forall a, chain2 a d b -> a <= b /\ forall s, List.In s d -> exists l u, ts_t s = Itv (Some l) (Some u) /\ a <= l /\ l <= u /\ u <= b.
Proof.
  induction d as [|s d IH]; intros a C; cbn in C; [split; [lra|intros s []]|]. destruct C as (c & E & Ac & C). destruct (IH c C) as [L F].
  split; [lra|]. intros q [<-|Q]; [exists a, c; repeat split; auto; lra|]. destruct (F q Q) as (l & u & E' & X). exists l, u. split; auto. lra.
Qed.
Lemma ch_app b l r : forall a, chain2 a (l ++ r) b <-> exists c, chain2 a l c /\ chain2 c r b.
Proof.
  induction l as [|s l IH]; intros a; cbn.
  - split; [intros C; exists a; auto|intros (c & -> & C); auto].
  - split.
    + intros (c & E & L & C). apply IH in C as (e & C1 & C2). exists e. split; auto. exists c. auto.
    + intros (e & (c & E & L & C1) & C2). exists c. split; auto. split; auto. apply IH. exists e. auto.
Qed.
Lemma gate_itv s l u : ts_t s = Itv (Some l) (Some u) -> is_gate s = Reqb l u.
Proof. intros E. unfold is_gate. rewrite E. reflexivity. Qed.
Lemma In_I (l u t : R) : In t (Itv (Some l) (Some u)) <-> l <= t <= u. Proof. cbn. tauto. Qed.
Lemma part_chain d : forall a b, partition d -> t0_tf d = Itv (Some a) (Some b) -> chain2 a d b.
Proof.
  induction d as [|s d IH]; intros a b (P1 & P2 & P3) T; [congruence|].
  assert (Ns : exists t, In t (ts_t s)) by (apply P2; left; reflexivity). destruct (ts_itv s Ns) as [Es Os].
  unfold t0_tf in T. injection T as T1 T2. cbn [d_lb] in T1.
  destruct d as [|q d].
  - cbn in T2. exists b. rewrite Es, T1, T2. cbn. auto.
  - cbn [linked] in P3. destruct P3 as [[(c & U1 & U2) _] L].
    exists c. rewrite Es, T1, U1. split; auto. split; auto. apply IH.
    + split; [discriminate|]. split; auto. intros x X. apply P2. right. auto.
    + unfold t0_tf. cbn [d_lb]. rewrite U2. f_equal. rewrite <- T2. symmetry. apply (d_ub_app [s] q d).
Qed.

(** the slices only *)
Definition N (d : list tslice) (t v : R) : Prop := forall s, List.In s d -> is_gate s = false -> In t (ts_t s) -> In v (ts_x s).
Definition gate_at (d : list tslice) (t : R) : Prop := exists s, List.In s d /\ is_gate s = true /\ In t (ts_t s).
Lemma N_app l r t v : N (l ++ r) t v <-> N l t v /\ N r t v.
Proof.
  unfold N. split; [intros H; split; intros s S; apply H; apply in_app_iff; auto|].
  intros [H1 H2] s S. apply in_app_iff in S as [S|S]; auto.
Qed.
Lemma N_out d a b t v : chain2 a d b -> t < a \/ b < t -> N d t v.
Proof.
  intros C O s S _ I. destruct (ch_in b d a C) as [_ F]. destruct (F s S) as (l & u & E & X). rewrite E, In_I in I. lra.
Qed.
Lemma N_gates d a v t : chain2 a d a -> N d t v.
Proof.
  intros C s S G I. destruct (ch_in a d a C) as [_ F]. destruct (F s S) as (l & u & E & X). rewrite (gate_itv s l u E) in G. apply Reqb_false in G. lra.
Qed.
Lemma N_one s l u t v : ts_t s = Itv (Some l) (Some u) -> l < u -> l <= t <= u -> (N [s] t v <-> In v (ts_x s)).
Proof.
  intros E L T. split.
  - intros H. apply H; [left; auto|rewrite (gate_itv s l u E); apply Reqb_false; lra|rewrite E; apply In_I; lra].
  - intros H q [<-|[]] _ _. auto.
Qed.
Lemma N_gate s t v : is_gate s = true -> N [s] t v.
Proof. intros G q [<-|[]]. congruence. Qed.

(** the last slice before [tau] *)
Lemma last_slice tau l : forall a, chain2 a l tau -> a < tau -> exists l1 q l2 c, l = l1 ++ q :: l2 /\ chain2 a l1 c /\ ts_t q = Itv (Some c) (Some tau) /\ c < tau /\ chain2 tau l2 tau.
Proof.
  induction l as [|s l IH]; intros a C L; cbn in C; [lra|]. destruct C as (c & E & Ac & C).
  destruct (ch_in _ _ _ C) as [Lc _]. destruct (Rle_lt_or_eq_dec c tau Lc) as [H|H].
  - destruct (IH c C H) as (l1 & q & l2 & c' & -> & C1 & X). exists (s :: l1), q, l2, c'. split; auto. split; auto. exists c. auto.
  - subst c. exists [], s, l, a. cbn. auto.
Qed.
Lemma first_slice b l : forall a, chain2 a l b -> a < b -> exists l1 q l2 c, l = l1 ++ q :: l2 /\ chain2 a l1 a /\ ts_t q = Itv (Some a) (Some c) /\ a < c /\ chain2 c l2 b.
Proof.
  induction l as [|s l IH]; intros a C L; cbn in C; [lra|]. destruct C as (c & E & Ac & C).
  destruct (Rle_lt_or_eq_dec a c Ac) as [H|H].
  - exists [], s, l, c. cbn. auto.
  - subst c. destruct (IH a C L) as (l1 & q & l2 & c' & -> & C1 & X). exists (s :: l1), q, l2, c'. split; auto. split; auto. exists a. auto.
Qed.
Lemma no_gate_in d a b l u t l1 q l2 : chain2 a d b -> d = l1 ++ q :: l2 -> ts_t q = Itv (Some l) (Some u) -> l < t < u -> ~ gate_at d t.
Proof.
  intros C -> E T (s & S & G & I). apply ch_app in C as (c & C1 & c' & E' & L & C2). rewrite E in E'. injection E' as <- <-.
  apply in_app_iff in S as [S|[<-|S]].
  - destruct (ch_in _ _ _ C1) as [_ F]. destruct (F s S) as (x & y & Es & X). rewrite Es, In_I in I. lra.
  - rewrite (gate_itv q l u E) in G. apply Reqb_true in G. lra.
  - destruct (ch_in _ _ _ C2) as [_ F]. destruct (F s S) as (x & y & Es & X). rewrite Es, In_I in I. lra.
Qed.
(** values of the slices of a prefix at its end: the values just before *)
Lemma N_left l a tau x v : chain2 a l tau -> 
  (forall t, a <= t < tau -> ~ gate_at l t -> In v (eval_t x t) <-> N l t v) ->
  (N l tau v <-> (a < tau -> Ll x tau v)).
Proof.
  intros C F. destruct (ch_in _ _ _ C) as [La _]. destruct (Rle_lt_or_eq_dec a tau La) as [H|H].
  2:{ subst tau. split; [lra|]. intros _. apply (N_gates _ a); auto. }
  destruct (last_slice tau l a C H) as (l1 & q & l2 & c & -> & C1 & E & Lc & C2).
  destruct (ch_in _ _ _ C1) as [Lac _].
  assert (X : forall t, c < t <= tau -> (N (l1 ++ q :: l2) t v <-> In v (ts_x q))).
  { intros t T. rewrite N_app. change (q :: l2) with ([q] ++ l2). rewrite N_app, (N_one q c tau t v E) by lra.
    split; [tauto|]. intros V. split; [apply (N_out l1 a c); auto; lra|]. split; auto. apply (N_gates l2 tau); auto. }
  rewrite X by lra. split.
  - intros V _. exists c. split; auto. intros t T. apply F; [lra|apply (no_gate_in _ a tau c tau t l1 q l2); auto|]. apply X; auto; lra.
  - intros V. destruct (V H) as (w & W & G). destruct (between w c tau W Lc) as (t & T1 & T2). specialize (G t T1).
    apply F in G; [apply X in G; auto; lra|lra|apply (no_gate_in _ a tau c tau t l1 q l2); auto].
Qed.
Lemma N_right r tau b x v : chain2 tau r b -> 
  (forall t, tau < t <= b -> ~ gate_at r t -> In v (eval_t x t) <-> N r t v) ->
  (N r tau v <-> (tau < b -> Rl x tau v)).
Proof.
  intros C F. destruct (ch_in _ _ _ C) as [La _]. destruct (Rle_lt_or_eq_dec tau b La) as [H|H].
  2:{ subst tau. split; [lra|]. intros _. apply (N_gates _ b); auto. }
  destruct (first_slice b r tau C H) as (l1 & q & l2 & c & -> & C1 & E & Lc & C2).
  destruct (ch_in _ _ _ C2) as [Lcb _].
  assert (X : forall t, tau <= t < c -> (N (l1 ++ q :: l2) t v <-> In v (ts_x q))).
  { intros t T. rewrite N_app. change (q :: l2) with ([q] ++ l2). rewrite N_app, (N_one q tau c t v E) by lra.
    split; [tauto|]. intros V. split; [apply (N_gates l1 tau); auto|]. split; auto. apply (N_out l2 c b); auto; lra. }
  rewrite X by lra. split.
  - intros V _. exists c. split; auto. intros t T. apply F; [lra|apply (no_gate_in _ tau b tau c t l1 q l2); auto|]. apply X; auto; lra.
  - intros V. destruct (V H) as (w & W & G). destruct (between (- w) (- c) (- tau)) as (t & T1 & T2); [lra|lra|]. specialize (G (- t) ltac:(lra)).
    apply F in G; [apply X in G; auto; lra|lra|apply (no_gate_in _ tau b tau c (-t) l1 q l2); auto; lra].
Qed.

(** ** to_codac1 *)
Lemma set_cell_eq x s l u : ts_t s = Itv (Some l) (Some u) -> set_cell x s = tube_set_itv (ts_x s) l u x.
Proof. intros E. unfold set_cell. rewrite E. reflexivity. Qed.
Lemma tube_set_itv_pt y u x : tube_set_itv y u u x = Tube.tube_set_at y u x.
Proof. unfold tube_set_itv. rewrite (proj2 (Reqb_true u u) eq_refl). reflexivity. Qed.

(** after the first loop on the prefix [l] *)
Definition inv1 (a b tau : R) (l : list tslice) (x : tube) : Prop :=
  tube_ok a b x /\ (forall t v, a <= t < tau -> (In v (eval_t x t) <-> N l t v)) /\
  (tau = b -> ~ gate_at l b -> forall v, In v (eval_t x b) <-> N l b v).
Lemma pass1 a b r : forall tau l x, chain2 a l tau -> chain2 tau r b -> (forall s, List.In s r -> wf (ts_x s)) ->
  inv1 a b tau l x -> inv1 a b b (l ++ r) (fold_left set_cell r x).
Proof.
  induction r as [|s r IH]; intros tau l x Cl Cr W I.
  - cbn in *. subst tau. rewrite app_nil_r. auto.
  - cbn [fold_left]. destruct Cr as (c & E & Lc & Cr). replace (l ++ s :: r) with ((l ++ [s]) ++ r) by (rewrite <- app_assoc; reflexivity).
    destruct (ch_in _ _ _ Cl) as [La _]. destruct (ch_in _ _ _ Cr) as [Lb _].
    assert (Ws : wf (ts_x s)) by (apply W; left; reflexivity).
    apply (IH c); [apply ch_app; exists tau; split; auto; exists c; cbn; auto|auto|intros q Q; apply W; right; auto|].
    destruct I as (Ok & I1 & I2). rewrite (set_cell_eq _ _ _ _ E).
    split; [apply tube_set_itv_ok; auto; lra|].
    destruct (Rle_lt_or_eq_dec tau c Lc) as [H|H].
    + destruct (set_itv_eval a b x (ts_x s) tau c Ok Ws La H Lb) as (A1 & _ & _ & A4).
      split.
      * intros t v T. rewrite N_app. destruct (Rtotal_order t tau) as [Ht|[->|Ht]].
        -- rewrite A4 by lra. rewrite I1 by lra. split; [|tauto]. intros V. split; auto. apply (N_out [s] tau c); [exists c; cbn; auto|lra].
        -- destruct (set_itv_exact a b x (ts_x s) tau c v Ok Ws La H Lb) as [B1 _]. rewrite B1.
           rewrite (N_one s tau c tau v E H) by lra. rewrite (N_left l a tau x v Cl); [tauto|]. intros t Ht _. apply I1; auto.
        -- rewrite A1 by lra. rewrite (N_one s tau c t v E H) by lra. split; [|tauto]. intros V. split; auto. apply (N_out l a tau); auto; lra.
      * intros -> _ v. destruct (set_itv_exact a b x (ts_x s) tau b v Ok Ws La H Lb) as [_ B1]. rewrite B1 by auto.
        rewrite N_app, (N_one s tau b b v E H) by lra. split; [|tauto]. intros V. split; auto. apply (N_out l a tau); auto; lra.
    + subst c. assert (G : is_gate s = true) by (rewrite (gate_itv s _ _ E); apply Reqb_true; auto).
      rewrite tube_set_itv_pt. destruct (set_at_eval a b x (ts_x s) tau Ok Ws) as [_ A]; [lra|]. split.
      * intros t v T. rewrite A by lra. rewrite N_app, I1 by lra. split; [|tauto]. intros V. split; auto. apply N_gate; auto.
      * intros -> NG. exfalso. apply NG. exists s. split; [apply in_app_iff; right; left; auto|]. split; auto. rewrite E. apply In_I. lra.
Qed.

(** two consecutive gates are impossible *)
Lemma gate_after g r u b s : chain2 u (g :: r) b -> linked (g :: r) -> is_gate g = true -> List.In s r -> is_gate s = true -> In u (ts_t s) -> False.
Proof.
  intros (c & E & Lc & C) L G S Gs I. destruct r as [|q r]; [destruct S|]. cbn [linked] in L. destruct L as [[_ NG] _].
  assert (u = c) by (rewrite (gate_itv g _ _ E) in G; apply Reqb_true in G; auto). subst c.
  destruct C as (c & Eq & Lq & C). assert (Gq : is_gate q = false) by (destruct (is_gate q); auto; exfalso; auto).
  rewrite (gate_itv q _ _ Eq) in Gq. apply Reqb_false in Gq. destruct S as [<-|S].
  - rewrite (gate_itv q _ _ Eq) in Gs. apply Reqb_true in Gs. auto.
  - destruct (ch_in _ _ _ C) as [_ F]. destruct (F s S) as (x & y & Es & X). rewrite Es, In_I in I. lra.
Qed.
Lemma gate_only d a b l g r u s : chain2 a d b -> linked d -> d = l ++ g :: r -> is_gate g = true -> In u (ts_t g) ->
  List.In s d -> is_gate s = true -> In u (ts_t s) -> s = g \/ False.
Proof.
  intros C L -> G Ig S Gs Is. apply in_app_iff in S as [S|[<-|S]]; auto; right.
  - apply in_split in S as (l1 & l2 & ->). rewrite <- app_assoc in *. cbn [app] in *. apply ch_app in C as (c & C1 & C2).
    apply linked_app in L as [_ L]. assert (c = u).
    { destruct C2 as (c' & E & _). rewrite (gate_itv s _ _ E) in Gs. apply Reqb_true in Gs. rewrite E, In_I in Is. lra. }
    subst c. apply (gate_after s (l2 ++ g :: r) u b g); auto. apply in_app_iff. right. left. auto.
  - apply ch_app in C as (c & C1 & C2). apply linked_app in L as [_ L]. assert (c = u).
    { destruct C2 as (c' & E & _). rewrite (gate_itv g _ _ E) in G. apply Reqb_true in G. rewrite E, In_I in Ig. lra. }
    subst c. apply (gate_after g r u b s); auto.
Qed.
(** after the second loop on a prefix, [r] remaining *)
Definition inv2 (a b : R) (d r : list tslice) (x : tube) : Prop :=
  tube_ok a b x /\ (forall t v, a <= t <= b -> ~ gate_at d t -> (In v (eval_t x t) <-> N d t v)) /\
  (forall t v, a <= t <= b -> ~ gate_at r t -> (In v (eval_t x t) <-> at2 d t v)).
Lemma at2_N d t v : ~ gate_at d t -> (at2 d t v <-> N d t v).
Proof.
  intros G. unfold at2, N. split; [auto|]. intros H s S I. apply H; auto. destruct (is_gate s) eqn:E; auto. exfalso. apply G. exists s. auto.
Qed.
Lemma pass2 a b d r : forall l x, chain2 a d b -> linked d -> d = l ++ r -> (forall s, List.In s d -> wf (ts_x s)) ->
  inv2 a b d r x -> inv2 a b d [] (fold_left set_gate_cell r x).
Proof.
  induction r as [|g r IH]; intros l x C L D W I; [auto|]. cbn [fold_left]. apply (IH (l ++ [g])); auto; [rewrite <- app_assoc; auto|].
  unfold set_gate_cell. destruct I as (Ok & I1 & I2). destruct (is_gate g) eqn:G.
  2:{ split; auto. split; auto. intros t v T NG. apply I2; auto. intros (s & [<-|S] & Gs & Is); [congruence|]. apply NG. exists s. auto. }
  pose proof C as C'. rewrite D in C'. apply ch_app in C' as (u & Cl & u' & E & _ & Cr).
  assert (u = u') by (rewrite (gate_itv g _ _ E) in G; apply Reqb_true in G; auto). subst u'.
  destruct (ch_in _ _ _ Cl) as [La _]. destruct (ch_in _ _ _ Cr) as [Lb _].
  rewrite (set_cell_eq _ _ _ _ E). assert (Wg : wf (ts_x g)) by (apply W; rewrite D; apply in_app_iff; right; left; auto).
  split; [apply tube_set_itv_ok; auto; lra|]. rewrite tube_set_itv_pt.
  destruct (set_at_eval a b x (ts_x g) u Ok Wg) as [_ A]; [lra|].
  assert (Ig : In u (ts_t g)) by (rewrite E; apply In_I; lra). assert (Sg : List.In g d) by (rewrite D; apply in_app_iff; right; left; auto).
  split.
  - intros t v T NG. destruct (Req_dec t u) as [->|Nt]; [exfalso; apply NG; exists g; auto|]. rewrite A by auto. auto.
  - intros t v T NG. destruct (Req_dec t u) as [->|Nt].
    2:{ rewrite A by auto. apply I2; auto. intros (s & [<-|S] & Gs & Is); [rewrite E, In_I in Is; lra|]. apply NG. exists s. auto. }
    rewrite (set_at_exact a b x (ts_x g) u v Ok Wg T).
    assert (Nd : forall t, N d t v <-> N l t v /\ N r t v).
    { intros t. rewrite D, N_app. change (g :: r) with ([g] ++ r). rewrite N_app. pose proof (N_gate g t v G). tauto. }
    rewrite <- (N_left l a u x v Cl), <- (N_right r u b x v Cr).
    + split.
      * intros (V & V1 & V2) s S Is. destruct (is_gate s) eqn:Gs.
        -- destruct (gate_only d a b l g r u s C L D G Ig S Gs Is) as [->|[]]. auto.
        -- apply (proj2 (Nd u)); auto.
      * intros V. split; [apply V; auto|]. apply Nd. intros s S _. apply V; auto.
    + intros t Ht NGt. rewrite I1; [|lra|].
      * rewrite Nd. split; [tauto|]. intros V. split; auto. apply (N_out l a u); auto; lra.
      * intros (s & S & Gs & Is). rewrite D in S. apply in_app_iff in S as [S|[<-|S]].
        -- destruct (ch_in _ _ _ Cl) as [_ F]. destruct (F s S) as (y & z & Es & X). rewrite Es, In_I in Is. lra.
        -- rewrite E, In_I in Is. lra.
        -- apply NGt. exists s. auto.
    + intros t Ht NGt. rewrite I1; [|lra|].
      * rewrite Nd. split; [tauto|]. intros V. split; auto. apply (N_out r u b); auto; lra.
      * intros (s & S & Gs & Is). rewrite D in S. apply in_app_iff in S as [S|[<-|S]].
        -- apply NGt. exists s. auto.
        -- rewrite E, In_I in Is. lra.
        -- destruct (ch_in _ _ _ Cr) as [_ F]. destruct (F s S) as (y & z & Es & X). rewrite Es, In_I in Is. lra.
Qed.

(** Converting a codac2 tube gives a well-formed codac tube on the same temporal domain, with the same values at all
    instants. *)
Theorem C103_to1 : forall d a b, partition d -> t0_tf d = Itv (Some a) (Some b) -> a < b -> (forall s, List.In s d -> wf (ts_x s)) ->
  exists x, to_codac1 d = Some x /\ tube_ok a b x /\ forall t v, a <= t <= b -> (In v (eval_t x t) <-> at2 d t v).
Proof.
  intros d a b P T L W. pose proof (part_chain d a b P T) as C. unfold to_codac1. rewrite T, (proj2 (Rltb_true a b) L).
  eexists. split; [reflexivity|].
  assert (Ok0 : tube_ok a b (tube_one a b ALL)) by (apply tube_one_ok; auto; exact Logic.I).
  pose proof (pass1 a b d a [] (tube_one a b ALL) eq_refl C W) as Q. cbn [app] in Q. destruct Q as (Ok1 & I1 & I2).
  { split; auto. split; [intros; lra|]. intros. lra. }
  destruct (pass2 a b d d [] (fold_left set_cell d (tube_one a b ALL)) C) as (Ok2 & _ & F); auto; [apply P| |].
  - assert (X : forall t v, a <= t <= b -> ~ gate_at d t -> (In v (eval_t (fold_left set_cell d (tube_one a b ALL)) t) <-> N d t v)).
    { intros t v Ht NG. destruct (Req_dec t b) as [->|Nb]; [apply I2; auto|apply I1; lra]. }
    split; auto. split; auto. intros t v Ht NG. rewrite at2_N by auto. auto.
  - split; auto. intros t v Ht. apply F; auto. intros (s & [] & _).
Qed.

(** the trajectories of a codac tube are those in its values at all instants *)
Lemma has_eval a b x f : tube_ok a b x -> (has x f <-> forall t, a <= t <= b -> In (f t) (eval_t x t)).
Proof.
  intros H. split.
  - intros F t T. apply (TubeFacts.eval_t_in a b); auto.
  - intros F s S. destruct (chain_in_bounds _ _ _ _ (ok_chain _ _ _ H) S) as (B1 & B2 & B3). apply In_nth_error in S as [k E].
    split; [|split].
    + specialize (F (s_lb s) ltac:(lra)). rewrite (eval_t_slice a b x k s _ H E), slice_eval_lb in F by lra. auto.
    + specialize (F (s_ub s) ltac:(lra)). rewrite (eval_t_slice a b x k s _ H E), slice_eval_ub in F by lra. auto.
    + intros t T. specialize (F t ltac:(lra)). rewrite (eval_t_slice a b x k s _ H E), slice_eval_mid in F by lra. auto.
Qed.
Lemma traj_at2 f d : traj_in f d <-> forall t, at2 d t (f t).
Proof. unfold traj_in, at2. split; intros H; intros; apply H; auto. Qed.
Lemma at2_out d a b t v : chain2 a d b -> t < a \/ b < t -> at2 d t v.
Proof. intros C O s S I. destruct (ch_in b d a C) as [_ F]. destruct (F s S) as (l & u & E & X). rewrite E, In_I in I. lra. Qed.
(** same values at all instants, same trajectories *)
Lemma same_traj a b d x f : chain2 a d b -> tube_ok a b x -> (forall t v, a <= t <= b -> (In v (eval_t x t) <-> at2 d t v)) ->
  (has x f <-> traj_in f d).
Proof.
  intros C H E. rewrite (has_eval a b x f H), traj_at2. split.
  - intros F t. destruct (Rlt_dec t a); [apply (at2_out d a b); auto|]. destruct (Rlt_dec b t); [apply (at2_out d a b); auto|].
    apply E; [lra|]. apply F. lra.
  - intros F t T. apply E; auto.
Qed.
(** Hence the same trajectories. *)
Theorem C103_to1_traj : forall d a b, partition d -> t0_tf d = Itv (Some a) (Some b) -> a < b -> (forall s, List.In s d -> wf (ts_x s)) ->
  exists x, to_codac1 d = Some x /\ forall f, has x f <-> traj_in f d.
Proof.
  intros d a b P T L W. destruct (C103_to1 d a b P T L W) as (x & E & Ok & F). exists x. split; auto. intros f.
  apply (same_traj a b); auto. apply part_chain; auto.
Qed.

(** ** Samplings *)
Lemma find_ts_whole t r : forall rl s, whole (find_ts t rl s r) = rev_append rl (s :: r).
Proof. induction r as [|b r IH]; intros rl s; cbn [find_ts]; destruct (ts_at s t); try reflexivity. rewrite IH. reflexivity. Qed.
Lemma iterator_whole t d it : iterator_tslice t d = Some it -> whole it = d.
Proof.
  destruct d as [|s r]; unfold iterator_tslice; [discriminate|]. destruct (contains (t0_tf (s :: r)) t); [|discriminate]. intros E. injection E as <-. apply find_ts_whole.
Qed.
Lemma d_ub_bound d u : d_ub d = Some u -> bound d u.
Proof.
  unfold d_ub. destruct (rev d) as [|s r] eqn:E; [discriminate|]. intros U. exists s. split; auto. apply in_rev. rewrite E. left. auto.
Qed.
(** what sampling keeps: the gates, the bounds up to the new one, and the value ALL *)
Definition kept (t : R) (d d' : list tslice) : Prop :=
  (forall s, List.In s d -> is_gate s = true -> List.In s d') /\ (forall u, bound d' u -> bound d u \/ u = t) /\
  ((forall s, List.In s d -> ts_x s = ALL) -> forall s, List.In s d' -> ts_x s = ALL).
Lemma kept_refl t d : kept t d d. Proof. split; auto. Qed.
Lemma kept_trans t d e f : kept t d e -> kept t e f -> kept t d f.
Proof.
  intros (A1 & A2 & A3) (B1 & B2 & B3). split; [|split].
  - intros s S G. apply B1; auto.
  - intros u U. apply B2 in U as [U|U]; auto.
  - auto.
Qed.
Lemma kept_front t d : d_lb d <> None -> kept t d (TS (Itv (Some t) (d_lb d)) ALL :: d).
Proof.
  intros N. split; [|split].
  - intros s S _. right. auto.
  - intros u (s & [<-|S] & B); [|left; exists s; auto]. cbn in B. destruct B as [B|B]; [right; congruence|].
    left. destruct d as [|q d]; [discriminate|]. exists q. split; [left; auto|]. left. auto.
  - intros H s [<-|S]; auto.
Qed.
Lemma kept_back t d : kept t d (d ++ [TS (Itv (d_ub d) (Some t)) ALL]).
Proof.
  split; [|split].
  - intros s S _. apply in_app_iff. auto.
  - intros u (s & S & B). apply in_app_iff in S as [S|[<-|[]]]; [left; exists s; auto|]. cbn in B. destruct B as [B|B]; [left; apply d_ub_bound; auto|right; congruence].
  - intros H s S. apply in_app_iff in S as [S|[<-|[]]]; auto.
Qed.
Lemma kept_split t rl s r : is_gate s = false -> 
  kept t (rev_append rl (s :: r)) (rev_append rl (TS (Itv (t_lb s) (Some t)) (ts_x s) :: TS (Itv (Some t) (t_ub s)) (ts_x s) :: r)).
Proof.
  intros G. split; [|split].
  - intros q Q Gq. apply rev_append_in in Q. apply rev_append_in. destruct Q as [Q|[<-|Q]]; auto; [congruence|]. right. right. right. auto.
  - intros u (q & Q & B). assert (M : List.In s (rev_append rl (s :: r))) by (apply rev_append_in; right; left; auto).
    apply rev_append_in in Q. destruct Q as [Q|[<-|[<-|Q]]].
    + left. exists q. split; auto. apply rev_append_in. auto.
    + cbn in B. destruct B as [B|B]; [left; exists s; auto|right; congruence].
    + cbn in B. destruct B as [B|B]; [right; congruence|left; exists s; auto].
    + left. exists q. split; auto. apply rev_append_in. right. right. auto.
  - intros H q Q. assert (M : List.In s (rev_append rl (s :: r))) by (apply rev_append_in; right; left; auto).
    apply rev_append_in in Q. destruct Q as [Q|[<-|[<-|Q]]]; cbn; auto; apply H; apply rev_append_in; auto. right. right. auto.
Qed.
Lemma sample_kept n : forall g t d it, Codac2.sample n g t d = Some it -> kept t d (whole it).
Proof.
  induction n as [|n IH]; intros g t d it E; [discriminate|]. cbn [Codac2.sample] in E. destruct d as [|s0 r0]; [discriminate|].
  set (d := s0 :: r0) in *. 
  destruct (match d_lb d with Some l => Rleb t l | None => false end) eqn:Q1.
  - assert (N : d_lb d <> None) by (destruct (d_lb d); congruence). clear Q1. pose proof (kept_front t d N) as K.
    destruct (is_gate s0 && opt_eqb (t_lb s0) (Some t)); [injection E as <-; apply kept_refl|].
    destruct g; [|injection E as <-; exact K]. destruct (is_gate _); [injection E as <-; exact K|].
    apply IH in E. eapply kept_trans; [exact K|exact E].
  - clear Q1. destruct (match d_ub d with Some u => Rltb u t | None => false end).
    + pose proof (kept_back t d) as K. destruct g; [|injection E as <-].
      * apply IH in E. eapply kept_trans; [exact K|exact E].
      * change (kept t d (rev_append (rev d) [TS (Itv (d_ub d) (Some t)) ALL])). rewrite rev_append_rev, rev_involutive. exact K.
    + destruct (iterator_tslice t d) as [[[rl s] r]|] eqn:Ei; [|discriminate]. pose proof (iterator_whole _ _ _ Ei) as W.
      destruct (is_gate s) eqn:G; cbn [orb] in E; [injection E as <-; rewrite W; apply kept_refl|].
      destruct (negb g && _); [injection E as <-; rewrite W; apply kept_refl|]. cbv zeta in E.
      pose proof (kept_split t rl s r G) as K. change (rev_append rl (s :: r)) with (whole (rl, s, r)) in K. rewrite W in K.
      destruct (is_gate (TS (Itv (t_lb s) (Some t)) (ts_x s))); [injection E as <-; exact K|].
      destruct g; [|injection E as <-; exact K]. apply IH in E. eapply kept_trans; [exact K|exact E].
Qed.
Lemma hull_pt_in a b t : a <= t <= b -> hull (Itv (Some a) (Some b)) (pt t) = Itv (Some a) (Some b).
Proof.
  intros T. unfold hull, pt, min_lo, max_hi. f_equal; f_equal; [apply Rmin_left|apply Rmax_left]; lra.
Qed.
Lemma sample_all_ok a b l : forall d, partition d -> t0_tf d = Itv (Some a) (Some b) -> (forall s, List.In s d -> ts_x s = ALL) ->
  (forall u, List.In u l -> a <= u <= b) -> exists d', sample_all l d = Some d' /\
  partition d' /\ t0_tf d' = Itv (Some a) (Some b) /\ (forall s, List.In s d' -> ts_x s = ALL) /\
  (forall s, List.In s d -> is_gate s = true -> List.In s d') /\ (forall u, List.In u l -> gate_at d' u) /\
  (forall u, bound d' u -> bound d u \/ List.In u l).
Proof.
  induction l as [|t l IH]; intros d P T A B; cbn [sample_all].
  - exists d. split; auto. split; auto. split; auto. split; auto. split; auto. split; auto. intros u [].
  - destruct (C49_sample d t true P) as (rl & s & r & E & P' & T' & _ & _ & Is & Gs & _). rewrite E. pose proof (sample_kept _ _ _ _ _ E) as (K1 & K2 & K3).
    assert (Bt : a <= t <= b) by (apply B; left; auto). rewrite T, (hull_pt_in a b t Bt) in T'.
    destruct (IH (whole (rl, s, r)) P' T' (K3 A)) as (d' & E' & P2 & T2 & A2 & G2 & F2 & B2); [intros u U; apply B; right; auto|].
    exists d'. split; auto. split; auto. split; auto. split; auto. split; [auto|]. split.
    + intros u [<-|U]; auto. exists s. split; auto. apply G2; auto. unfold whole. rewrite rev_append_rev. apply in_app_iff. right. left. auto.
    + intros u U. apply B2 in U as [U|U]; [|right; right; auto]. apply K2 in U as [U| ->]; auto. right. left. auto.
Qed.

(** ** to_codac2 *)
(** [u] is a bound of a slice *)
Definition cut (x : tube) (u : R) : Prop := exists s, List.In s x /\ (u = s_lb s \/ u = s_ub s).
Lemma cut_list b x : forall a, chain_from a x b -> x <> [] -> forall u, List.In u (map s_lb x ++ [tf x]) <-> cut x u.
Proof.
  induction x as [|s x IH]; intros a C Ne u; [congruence|]. destruct C as (E & L & C). destruct x as [|q x].
  - cbn. unfold cut. split.
    + intros [<-|[<-|[]]]; exists s; split; try (left; reflexivity); auto.
    + intros (r & [<-|[]] & [->| ->]); auto.
  - change (map s_lb (s :: q :: x) ++ [tf (s :: q :: x)]) with (s_lb s :: (map s_lb (q :: x) ++ [tf (q :: x)])).
    split.
    + intros [<-|U]; [exists s; split; [left; reflexivity|auto]|]. apply (IH _ C) in U; [|discriminate]. destruct U as (r & R & U). exists r. split; [right; auto|auto].
    + intros (r & [<-|R] & U).
      * destruct U as [->| ->]; [left; auto|right]. apply (IH _ C); [discriminate|]. exists q. split; [left; auto|]. cbn in C. left. symmetry. tauto.
      * right. apply (IH _ C); [discriminate|]. exists r. auto.
Qed.
Lemma cut_in a b x u : tube_ok a b x -> cut x u -> a <= u <= b.
Proof. intros H (s & S & U). destruct (chain_in_bounds _ _ _ _ (ok_chain _ _ _ H) S) as (B1 & B2 & B3). destruct U as [->| ->]; lra. Qed.
Lemma eval_itv_pt a b x u : tube_ok a b x -> a <= u <= b -> Tube.eval_itv x (Itv (Some u) (Some u)) = eval_t x u.
Proof.
  intros H U. unfold Tube.eval_itv. rewrite (chain_t0 x a b), (chain_tf x a b) by apply H.
  rewrite (proj2 (Rltb_false u a)), (proj2 (Rltb_false b u)), (proj2 (Reqb_true u u)) by (auto; lra). reflexivity.
Qed.
Lemma overlap_eq a b x j k s q : tube_ok a b x -> nth_error x j = Some s -> nth_error x k = Some q -> s_lb s < s_ub q -> s_lb q < s_ub s -> s = q.
Proof.
  intros H Es Eq L1 L2. destruct (Nat.lt_trichotomy j k) as [O|[O|O]].
  - pose proof (chain_order _ _ _ _ _ _ _ (ok_chain _ _ _ H) Es Eq O). lra.
  - subst. congruence.
  - pose proof (chain_order _ _ _ _ _ _ _ (ok_chain _ _ _ H) Eq Es O). lra.
Qed.

Lemma ch_cover b d : forall a t, chain2 a d b -> a <= t <= b -> d <> [] -> exists s, List.In s d /\ In t (ts_t s).
Proof.
  induction d as [|s r IH]; intros a t C T Ne; [congruence|]. destruct C as (c & E & L & C). destruct (Rle_dec t c) as [Htc|Htc].
  - exists s. split; [left; auto|]. rewrite E. apply In_I. lra.
  - destruct r as [|q r]; [cbn in C; lra|]. destruct (IH c t C) as (p & Q & I); [lra|discriminate|]. exists p. split; [right; auto|auto].
Qed.

(** a tube on the sampled TDomain *)
Definition restrict (x : tube) (d : list tslice) : list tslice := map (fun s => TS (ts_t s) (Tube.eval_itv x (ts_t s))) d.
Lemma restrict_cons x b d : forall a l p q r, chain2 a d b -> restrict x d = l ++ p :: q :: r -> exists p' q', List.In p' d /\ List.In q' d /\ ts_t p = ts_t p' /\ ts_t q = ts_t q' /\
  ts_x p = Tube.eval_itv x (ts_t p') /\ ts_x q = Tube.eval_itv x (ts_t q') /\ exists t, In t (ts_t p') /\ In t (ts_t q').
Proof.
  induction d as [|s e IH]; intros a l p q r C E; [destruct l; discriminate|].
  cbn in C. destruct C as (c & Es & Lc & C). destruct l as [|h l].
  - destruct e as [|s2 e]; [discriminate|]. cbn in E. injection E as <- <- _. exists s, s2. cbn in C. destruct C as (c2 & E2 & L2 & _).
    split; [left; auto|]. split; [right; left; auto|]. cbn. split; auto. split; auto. split; auto. split; auto. exists c. rewrite Es, E2. split; apply In_I; lra.
  - cbn in E. injection E as _ E. destruct (IH c l p q r C E) as (p' & q' & X1 & X2 & X).
    exists p', q'. split; [right; auto|]. split; [right; auto|auto].
Qed.
Lemma restrict_over x d : (forall s, List.In s d -> ts_x s = ALL) -> over (restrict x d) d.
Proof.
  induction d as [|s e IH]; intros A; constructor.
  - cbn. split; auto. rewrite (A s (or_introl eq_refl)). apply sub_ALL.
  - apply IH. intros q Q. apply A. right. auto.
Qed.
Section To2.
  Variables (a b : R) (x : tube) (d : list tslice).
  Hypotheses (Ok : tube_ok a b x) (C : chain2 a d b) (P : partition d)
    (G : forall u, cut x u -> gate_at d u).

  Lemma cell_itv s : List.In s d -> exists l u, ts_t s = Itv (Some l) (Some u) /\ a <= l /\ l <= u /\ u <= b.
  Proof using C. intros S. destruct (ch_in _ _ _ C) as [_ F]. auto. Qed.
  Lemma gate_at_itv u : gate_at d u -> exists s, List.In s d /\ ts_t s = Itv (Some u) (Some u).
  Proof using C.
    intros (s & S & Gs & I). destruct (cell_itv s S) as (l & c & E & X). exists s. split; auto.
    rewrite (gate_itv s _ _ E) in Gs. apply Reqb_true in Gs. rewrite E, In_I in I. rewrite E. f_equal; f_equal; lra.
  Qed.
  (** inside a slice, the value on a cell is that of the slice *)
  Lemma cell_value s t v : List.In s d -> In t (ts_t s) -> ~ cut x t -> In v (Tube.eval_itv x (ts_t s)) -> In v (eval_t x t).
  Proof using Ok C G.
    intros S I NC V. destruct (cell_itv s S) as (l & u & E & Al & Lu & Ub). rewrite E, In_I in I. rewrite E in V.
    destruct (Rle_lt_or_eq_dec l u Lu) as [L|L].
    2:{ subst u. assert (t = l) by lra. subst t. rewrite (eval_itv_pt a b) in V by (auto; lra). auto. }
    destruct (cover x a b t Ok) as (k & q & Eq & Bq); [lra|].
    assert (Sq : List.In q x) by (eapply nth_error_In; eauto).
    assert (t <> s_lb q) by (intros ->; apply NC; exists q; auto). assert (t <> s_ub q) by (intros ->; apply NC; exists q; auto).
    apply in_split in S as (l1 & l2 & D).
    assert (X : forall c, cut x c -> ~ l < c < u).
    { intros c Cc Bc. apply (no_gate_in d a b l u c l1 s l2 C D E Bc). apply G; auto. }
    assert (s_lb q <= l). { destruct (Rle_dec (s_lb q) l); auto. exfalso. apply (X (s_lb q)); [exists q; auto|lra]. }
    assert (u <= s_ub q). { destruct (Rle_dec u (s_ub q)); auto. exfalso. apply (X (s_ub q)); [exists q; auto|lra]. }
    rewrite (eval_t_slice a b x k q t Ok Eq), slice_eval_mid by lra.
    revert V. apply (eval_itv_least a b x l u (s_cod q) Ok Al L Ub).
    - pose proof (ok_slices _ _ _ Ok) as F. rewrite Forall_forall in F. apply (F q Sq).
    - intros s' S' L1 L2. apply In_nth_error in S' as [j Ej]. replace s' with q; [apply sub_refl|]. symmetry. apply (overlap_eq a b x j k); auto; lra.
  Qed.
  Lemma restrict_in s : List.In s (restrict x d) -> exists q, List.In q d /\ ts_t s = ts_t q /\ ts_x s = Tube.eval_itv x (ts_t q).
  Proof using. intros S. apply in_map_iff in S as (q & <- & Q). exists q. auto. Qed.
  (** the values of the restriction *)
  Lemma restrict_at2 t v : a <= t <= b -> (In v (eval_t x t) <-> at2 (restrict x d) t v).
  Proof using Ok C G P.
    intros T. split.
    - intros V s S I. apply restrict_in in S as (q & Q & E1 & E2). rewrite E2. rewrite E1 in I. destruct (cell_itv q Q) as (l & u & E & X).
      rewrite E in *. apply (eval_t_sub_itv a b x l u t Ok); auto.
    - intros V. destruct (Classical_Prop.classic (cut x t)) as [Ct|Ct].
      + destruct (gate_at_itv t (G t Ct)) as (s & S & E). rewrite <- (eval_itv_pt a b x t Ok T). rewrite <- E.
        apply (V (TS (ts_t s) (Tube.eval_itv x (ts_t s)))); [apply (List.in_map (fun s => TS (ts_t s) (Tube.eval_itv x (ts_t s))) d s); auto|].
        cbn [ts_t]. rewrite E. apply In_I. lra.
      + assert (Cv : exists s, List.In s d /\ In t (ts_t s)).
        { apply (ch_cover b d a t C T). apply P. }
        destruct Cv as (s & S & I). apply (cell_value s t v S I Ct).
        apply (V (TS (ts_t s) (Tube.eval_itv x (ts_t s)))); [apply (List.in_map (fun s => TS (ts_t s) (Tube.eval_itv x (ts_t s))) d s); auto|auto].
  Qed.
  Lemma restrict_regular : (forall t, a <= t <= b -> exists v, In v (eval_t x t)) -> regular (restrict x d).
  Proof using Ok C P.
    intros NE.
    assert (S1 : forall q t, List.In q d -> In t (ts_t q) -> sub (eval_t x t) (Tube.eval_itv x (ts_t q))).
    { intros q t Q I. destruct (cell_itv q Q) as (l & u & E & X). rewrite E in *. apply (eval_t_sub_itv a b x l u t Ok). auto. }
    assert (S2 : forall q t, List.In q d -> In t (ts_t q) -> a <= t <= b).
    { intros q t Q I. destruct (cell_itv q Q) as (l & u & E & X). rewrite E, In_I in I. lra. }
    refine (conj _ (conj _ _)).
    - intros s S. apply restrict_in in S as (q & Q & E1 & E2). rewrite E2. split; [apply (wf_eval_itv a b); auto|]. intros E.
      destruct P as (_ & P2 & _). destruct (P2 q Q) as [t T]. destruct (NE t (S2 q t Q T)) as [v V]. apply (S1 q t Q T) in V. rewrite E in V. exact V.
    - intros l p q r E. destruct (restrict_cons x b d a l p q r C E) as (p' & q' & Q1 & Q2 & T1 & T2 & X1 & X2 & t & I1 & I2). rewrite X1, X2.
      assert (Gt : forall y, List.In y d -> is_gate y = true -> In t (ts_t y) -> Tube.eval_itv x (ts_t y) = eval_t x t).
      { intros y Y Gy Iy. pose proof (S2 y t Y Iy) as Tt. destruct (cell_itv y Y) as (c & u & Ey & _). rewrite (gate_itv y _ _ Ey) in Gy. apply Reqb_true in Gy. subst u.
        rewrite Ey, In_I in Iy. assert (c = t) by lra. subst c. rewrite Ey. apply (eval_itv_pt a b); auto. }
      split.
      + intros Gp. assert (Gp' : is_gate p' = true) by (unfold is_gate in *; rewrite <- T1; exact Gp). rewrite (Gt p' Q1 Gp' I1). apply (S1 q' t Q2 I2).
      + intros Gp. assert (Gp' : is_gate q' = true) by (unfold is_gate in *; rewrite <- T2; exact Gp). rewrite (Gt q' Q2 Gp' I2). apply (S1 p' t Q1 I1).
    - intros l p q r E _ _. destruct (restrict_cons x b d a l p q r C E) as (p' & q' & Q1 & Q2 & T1 & T2 & X1 & X2 & t & I1 & I2). rewrite X1, X2.
      destruct (NE t (S2 p' t Q1 I1)) as [v V]. exists v. split; [apply (S1 p' t Q1 I1); auto|apply (S1 q' t Q2 I2); auto].
  Qed.
End To2.

(** an empty gate empties the whole tube *)
Lemma set_gate_E rl s r : is_gate s = true -> exists rl' s' r', slice_set Emp (rl, s, r) = (rl', s', r') /\ allE rl' /\ allE (s' :: r').
Proof.
  intros G. unfold slice_set. destruct (set_side rl (set_x s Emp)) as [s1 rl1] eqn:E1. destruct (set_side r s1) as [s2 r1] eqn:E2.
  assert (X1 : ts_x s1 = Emp /\ is_gate s1 = true).
  { destruct rl as [|p rl]; cbn [set_side] in E1; [injection E1 as <- <-; auto|]. rewrite set_x_gate, G in E1. injection E1 as <- <-. auto. }
  assert (X2 : ts_x s2 = Emp /\ is_gate s2 = true).
  { destruct X1 as [X1 G1]. destruct r as [|p r]; cbn [set_side] in E2; [injection E2 as <- <-; auto|]. rewrite G1 in E2. injection E2 as <- <-. cbn. rewrite X1. auto. }
  destruct X2 as [X2 G2]. unfold slice_is_empty. rewrite G2, X2. cbn [is_empty].
  eexists _, _, _. split; [reflexivity|]. split; [apply all_empty_E|]. intros q [<-|Q]; [reflexivity|]. apply (all_empty_E r1 q Q).
Qed.
Lemma loop_hit F : forall l l0 rl, good_times (rev rl ++ l) -> times l0 = times l -> (2 <= length rl + length l)%nat ->
  (exists s, List.In s l /\ is_gate s = true /\ F (ts_t s) = Emp) ->
  let d' := set_loop (map (fun s => Some (fun _ => F (ts_t s))) l0) rl l in allE d' /\ times d' = times (rev rl ++ l).
Proof.
  intros l l0. revert l. induction l0 as [|s0 l0 IH]; intros l rl Gt T Len Hit; cbv zeta.
  { destruct l; [|discriminate]. destruct Hit as (s & [] & _). }
  destruct l as [|s r]; [discriminate|]. cbn in T. injection T as T1 T2. cbn [map set_loop]. rewrite T1.
  pose proof (slice_set_traj (fun _ => 0) (F (ts_t s)) rl s r Gt) as X.
  destruct (slice_set (F (ts_t s)) (rl, s, r)) as [[rl' s'] r'] eqn:E. destruct X as (E1 & E2 & E3 & _).
  assert (Tm : times (rev (s' :: rl') ++ r') = times (rev rl ++ s :: r)).
  { cbn [rev]. rewrite <- app_assoc, times_rev_app. cbn [app]. rewrite times_rev_app, E1. cbn. rewrite E2. fold (times r') (times r). rewrite E3. reflexivity. }
  assert (L1 : length rl' = length rl) by (apply len_times; auto). assert (L2 : length r' = length r) by (apply len_times; auto).
  destruct (Classical_Prop.classic (is_gate s = true /\ F (ts_t s) = Emp)) as [[Gs Fs]|NH].
  - rewrite Fs in E. destruct (set_gate_E rl s r Gs) as (rl2 & s2 & r2 & E' & A1 & A2). rewrite E' in E. injection E as -> -> ->.
    destruct (loop_emptied (map (fun s => Some (fun _ => F (ts_t s))) l0) (s' :: rl') r') as [B1 B2].
    + intros q [<-|Q]; [apply A2; left; auto|apply A1; auto].
    + intros q Q. apply A2. right. auto.
    + cbn [length] in *. lia.
    + split; [exact B1|]. rewrite rev_append_rev in B2. exact (eq_trans B2 Tm).
  - destruct (IH r' (s' :: rl')) as [B1 B2].
    + apply (times_good (rev rl ++ s :: r)); auto.
    + unfold times in *. congruence.
    + cbn [length] in *. lia.
    + destruct Hit as (q & [<-|Q] & Gq & Fq); [exfalso; apply NH; auto|].
      assert (M : List.In (ts_t q) (times r')) by (rewrite E3; apply List.in_map; auto). apply in_map_iff in M as (q' & M1 & M2).
      exists q'. unfold is_gate in *. rewrite M1. auto.
    + split; [exact B1|]. exact (eq_trans B2 Tm).
Qed.
Lemma times_bound d d' u : times d = times d' -> bound d u -> bound d' u.
Proof.
  intros E (s & S & B). assert (M : List.In (ts_t s) (times d')) by (rewrite <- E; apply List.in_map; auto). apply in_map_iff in M as (q & M1 & M2).
  exists q. split; auto. unfold t_lb, t_ub in *. rewrite M1. auto.
Qed.
Lemma times_gate d d' u : times d = times d' -> gate_at d u -> gate_at d' u.
Proof.
  intros E (s & S & B). assert (M : List.In (ts_t s) (times d')) by (rewrite <- E; apply List.in_map; auto). apply in_map_iff in M as (q & M1 & M2).
  exists q. split; auto. unfold is_gate in *. rewrite M1. auto.
Qed.
Lemma times_t0 d : forall d', times d = times d' -> t0_tf d = t0_tf d'.
Proof.
  intros d' E. unfold t0_tf, d_lb, d_ub. f_equal.
  - destruct d, d'; try discriminate; auto. cbn in E. injection E as E _. unfold t_lb. rewrite E. reflexivity.
  - assert (E' : times (rev d) = times (rev d')) by (unfold times in *; rewrite !map_rev; congruence).
    destruct (rev d), (rev d'); try discriminate; auto. cbn in E'. injection E' as E' _. unfold t_ub. rewrite E'. reflexivity.
Qed.
Lemma times_part d d' : times d = times d' -> partition d -> partition d'.
Proof.
  intros E (P1 & P2 & P3). destruct (times_good d d' E (conj P2 P3)) as [G1 G2]. split; auto. intros ->. destruct d; [auto|discriminate].
Qed.

(** Converting a codac tube gives a codac2 tube on the same temporal domain, sliced as the codac tube with gates at all
    bounds of the slices, with the same trajectories; and with the same values at all instants if the tube is not empty. *)
Theorem C103_to2 : forall x a b, tube_ok a b x -> exists z, to_codac2 x = Some z /\
  partition z /\ t0_tf z = Itv (Some a) (Some b) /\ (forall u, bound z u <-> cut x u) /\ (forall u, cut x u -> gate_at z u) /\
  (forall s, List.In s z -> wf (ts_x s)) /\ (forall f, has x f <-> traj_in f z) /\
  ((forall t, a <= t <= b -> eval_t x t <> Emp) -> forall t v, a <= t <= b -> (In v (eval_t x t) <-> at2 z t v)).
Proof.
  intros x a b Ok. pose proof (ok_chain _ _ _ Ok) as Ch. pose proof (ok_ne _ _ _ Ok) as Ne.
  assert (Lab : a < b) by (destruct x as [|s x]; [congruence|]; destruct (chain_in_bounds _ _ _ s Ch (or_introl eq_refl)); lra).
  unfold to_codac2. rewrite (chain_t0 x a b), (chain_tf x a b) by auto.
  assert (Eb : bnd a b = Itv (Some a) (Some b)) by (unfold bnd, mk; destruct (Rle_dec a b); auto; lra). rewrite Eb.
  assert (CL : forall u, List.In u (map s_lb x ++ [b]) <-> cut x u) by (intros u; rewrite <- (chain_tf x a b) at 1 by auto; apply (cut_list b x a Ch Ne)).
  destruct (sample_all_ok a b (map s_lb x ++ [b]) (td_new (Itv (Some a) (Some b)) ALL)) as (d & E & P & T & A & _ & Gt & B).
  - split; [discriminate|]. split; [|exact Logic.I]. intros s [<-|[]]. exists a. cbn. lra.
  - reflexivity.
  - intros s [<-|[]]. reflexivity.
  - intros u U. apply CL in U. apply (cut_in a b x u Ok U).
  - rewrite E. eexists. split; [reflexivity|]. pose proof (part_chain d a b P T) as C.
    assert (G : forall u, cut x u -> gate_at d u) by (intros u U; apply Gt, CL; auto).
    set (z := set_loop _ [] d).
    assert (Ca : cut x a) by (apply CL; destruct x as [|s x]; [congruence|]; left; apply Ch).
    assert (Cb : cut x b) by (apply CL, in_app_iff; right; left; auto).
    assert (Bd : forall u, bound d u <-> cut x u).
    { intros u. split.
      - intros U. apply B in U as [U|U]; [|apply CL; auto]. destruct U as (s & [<-|[]] & [U|U]); cbn in U; injection U as <-; auto.
      - intros U. destruct (gate_at_itv a b d C u (G u U)) as (s & S & Es). exists s. split; auto. left. unfold t_lb. rewrite Es. auto. }
    assert (X : times z = times d /\ (forall s, List.In s z -> wf (ts_x s)) /\ (forall f, has x f <-> traj_in f z) /\
      ((forall t, a <= t <= b -> eval_t x t <> Emp) -> forall t v, a <= t <= b -> (In v (eval_t x t) <-> at2 z t v))).
    { assert (Tr : times (restrict x d) = times d) by (unfold times, restrict; rewrite map_map; reflexivity).
      destruct (Classical_Prop.classic (forall t, a <= t <= b -> eval_t x t <> Emp)) as [NE|EM].
      - assert (Ez : z = restrict x d).
        { unfold z. rewrite <- (C51_assign_partial (restrict x d) d) at 1.
          - unfold tube_assign, restrict. rewrite map_map. reflexivity.
          - apply (restrict_regular a b); auto. intros t Ht. apply wf_witness; auto. apply (wf_eval_t a b); auto.
          - apply restrict_over; auto. }
        rewrite Ez. assert (Q : forall t v, a <= t <= b -> (In v (eval_t x t) <-> at2 (restrict x d) t v)) by (intros t v Ht; apply (restrict_at2 a b); auto).
        split; auto. split; [intros s S; apply restrict_in in S as (q & _ & _ & ->); apply (wf_eval_itv a b); auto|]. split; auto. intros f. apply (same_traj a b); auto. apply part_chain; [apply (times_part d); auto|rewrite (times_t0 _ d); auto].
      - assert (exists u, cut x u /\ eval_t x u = Emp) as (u & Cu & Eu).
        { apply Classical_Pred_Type.not_all_ex_not in EM as [t EM]. assert (a <= t <= b /\ eval_t x t = Emp) as [Ht Et] by (clear - EM; tauto).
          destruct (cover x a b t Ok Ht) as (k & s & Es & Bs). assert (S : List.In s x) by (eapply nth_error_In; eauto).
          destruct (Req_dec t (s_lb s)) as [->|N1]; [exists (s_lb s); split; auto; exists s; auto|].
          destruct (Req_dec t (s_ub s)) as [->|N2]; [exists (s_ub s); split; auto; exists s; auto|].
          exists (s_lb s). split; [exists s; auto|]. rewrite (eval_t_slice a b x k s t Ok Es), slice_eval_mid in Et by lra.
          rewrite (eval_t_slice a b x k s (s_lb s) Ok Es), slice_eval_lb by lra.
          pose proof (ok_slices _ _ _ Ok) as F. rewrite Forall_forall in F. destruct (F s S) as (_ & _ & _ & Sb & _). rewrite Et in Sb.
          apply is_empty_true. destruct (is_empty (s_in s)) eqn:Ei; auto. apply is_empty_false in Ei. destruct (wf_witness (s_in s)) as [v V]; auto; [apply (F s S)|]. destruct (Sb v V). }
        destruct (gate_at_itv a b d C u (G u Cu)) as (g & Sg & Eg). pose proof (cut_in a b x u Ok Cu) as Hu.
        assert (Gg : is_gate g = true) by (rewrite (gate_itv g _ _ Eg); apply Reqb_true; auto).
        assert (Len : (2 <= length d)%nat).
        { destruct (gate_at_itv a b d C a (G a Ca)) as (p & Sp & Ep). destruct (gate_at_itv a b d C b (G b Cb)) as (q & Sq & Eq).
          destruct d as [|d1 [|d2 d]]; [destruct Sp| |cbn; lia]. destruct Sp as [<-|[]]. destruct Sq as [<-|[]]. rewrite Ep in Eq. injection Eq. lra. }
        destruct (loop_hit (Tube.eval_itv x) d d []) as [Az Tz]; auto; [split; apply P| |].
        { exists g. split; auto. split; auto. rewrite Eg, (eval_itv_pt a b); auto. }
        cbn [rev app] in Tz. split; [exact Tz|]. split; [intros s S; rewrite (Az s S); exact Logic.I|]. split.
        + intros f. split.
          * intros H. exfalso. pose proof (proj1 (has_eval a b x f Ok) H u Hu) as V. rewrite Eu in V. exact V.
          * intros H. exfalso. assert (Pz : partition z) by (apply (times_part d); auto). destruct Pz as (N1 & N2 & _).
            destruct z as [|s z'] eqn:Ez; [auto|]. destruct (N2 s (or_introl eq_refl)) as [t Ht]. specialize (H s t (or_introl eq_refl) Ht).
            rewrite (Az s) in H; [exact H|]. fold z. rewrite Ez. left. auto.
        + intros NE. exfalso. apply EM. auto. }
    destruct X as (Tz & Wz & X1 & X2). split; [apply (times_part d); auto|]. split; [rewrite (times_t0 z d); auto|]. split.
    + intros u. rewrite <- Bd. split; apply times_bound; auto.
    + split; auto. intros u U. apply (times_gate d); auto.
Qed.

(** Round trips: the trajectories are kept, and the values at all instants if the tube is not empty. *)
Theorem C103_round : forall x a b, tube_ok a b x -> exists z x', to_codac2 x = Some z /\ to_codac1 z = Some x' /\ tube_ok a b x' /\
  (forall f, has x' f <-> has x f) /\
  ((forall t, a <= t <= b -> eval_t x t <> Emp) -> forall t v, a <= t <= b -> (In v (eval_t x' t) <-> In v (eval_t x t))).
Proof.
  intros x a b Ok. destruct (C103_to2 x a b Ok) as (z & E & P & T & _ & _ & W & F & V).
  assert (Lab : a < b).
  { pose proof (ok_chain _ _ _ Ok) as Ch. pose proof (ok_ne _ _ _ Ok) as Ne. destruct x as [|s x]; [congruence|]; destruct (chain_in_bounds _ _ _ s Ch (or_introl eq_refl)); lra. }
  destruct (C103_to1 z a b P T Lab W) as (x' & E' & Ok' & V'). exists z, x'. split; auto. split; auto. split; auto. split.
  - intros f. rewrite F. apply (same_traj a b); auto. apply part_chain; auto.
  - intros NE t v Ht. rewrite V' by auto. symmetry. apply V; auto.
Qed.
(** The unbounded TSlices are meant to be skipped (line 24), but no tube on an unbounded temporal domain is converted. *)
Theorem C103_unbounded_refuted : exists d, partition d /\ (forall s, List.In s d -> wf (ts_x s)) /\ (exists f, traj_in f d) /\
  (exists s, List.In s d /\ is_gate s = false /\ ts_t s = Itv (Some 0) (Some 1)) /\ to_codac1 d = None.
Proof.
  assert (G : forall y, is_gate (TS (Itv (Some 0) (Some 1)) y) = false) by (intros y; unfold is_gate; cbn; apply Reqb_f; lra).
  exists [TS (Itv None (Some 0)) ALL; TS (Itv (Some 0) (Some 1)) (pt 0)]. refine (conj _ (conj _ (conj _ (conj _ _)))).
  - split; [discriminate|]. split.
    + intros s [<-|[<-|[]]]; exists 0; cbn; lra.
    + cbn. split; auto. split; [exists 0; auto|]. intros [_ H]. rewrite G in H. discriminate.
  - intros s [<-|[<-|[]]]; cbn; auto. lra.
  - exists (fun _ => 0). intros s t [<-|[<-|[]]] _; cbn; lra.
  - exists (TS (Itv (Some 0) (Some 1)) (pt 0)). split; [right; left; auto|]. split; auto.
  - reflexivity.
Qed.

(** A codac2 tube with a tight gate, then a slice; and a codac tube of two slices. *)
Definition d103 : list tslice := [TS (pt 0) (pt 0); TS (Itv (Some 0) (Some 1)) (Itv (Some 0) (Some 2)); TS (Itv (Some 1) (Some 3)) (Itv (Some 1) None)].
Example C103_to1_ex : partition d103 /\ t0_tf d103 = Itv (Some 0) (Some 3) /\ (forall s, List.In s d103 -> wf (ts_x s)) /\
  exists x, to_codac1 d103 = Some x /\ (forall v, In v (eval_t x 0) <-> v = 0) /\ (forall v, In v (eval_t x 1) <-> 1 <= v <= 2) /\ (forall v, In v (eval_t x 2) <-> 1 <= v).
Proof.
  assert (P : partition d103).
  { split; [discriminate|]. split.
    - intros s [<-|[<-|[<-|[]]]]; [exists 0|exists 0|exists 1]; cbn; lra.
    - cbn. split; [split; [exists 0; auto|]|split; [split; [exists 1; auto|]|auto]].
      + intros [_ H]. unfold is_gate in H. cbn in H. rewrite Reqb_f in H by lra. discriminate.
      + intros [H _]. unfold is_gate in H. cbn in H. rewrite Reqb_f in H by lra. discriminate. }
  assert (T : t0_tf d103 = Itv (Some 0) (Some 3)) by reflexivity.
  assert (W : forall s, List.In s d103 -> wf (ts_x s)) by (intros s [<-|[<-|[<-|[]]]]; cbn; auto; lra).
  split; auto. split; auto. split; auto.
  destruct (C103_to1 d103 0 3 P T ltac:(lra) W) as (x & E & _ & F). exists x. split; auto.
  split; [|split]; intros v; rewrite F by lra; unfold at2, d103; split.
  - intros H. specialize (H _ (or_introl eq_refl)). cbn in H. lra.
  - intros -> s [<-|[<-|[<-|[]]]]; cbn; lra.
  - intros H. pose proof (H _ (or_intror (or_introl eq_refl))) as H1. pose proof (H _ (or_intror (or_intror (or_introl eq_refl)))) as H2. cbn in *. lra.
  - intros V s [<-|[<-|[<-|[]]]]; cbn; lra.
  - intros H. pose proof (H _ (or_intror (or_intror (or_introl eq_refl)))) as H2. cbn in *. lra.
  - intros V s [<-|[<-|[<-|[]]]]; cbn; lra.
Qed.
Definition x103 : tube := [mkS 0 1 (I2 0 2) (I2 0 0) (I2 1 1); mkS 1 3 (I2 1 4) (I2 1 1) (I2 2 4)].
Example C103_to2_ex : tube_ok 0 3 x103 /\ (forall t, 0 <= t <= 3 -> eval_t x103 t <> Emp) /\ has x103 (fun t => t) /\
  exists z, to_codac2 x103 = Some z /\ gate_at z 1 /\ traj_in (fun t => t) z /\ forall v, at2 z 1 v <-> v = 1.
Proof.
  assert (Ok : tube_ok 0 3 x103) by tube_ok_tac.
  assert (H : has x103 (fun t => t)) by has_tac.
  assert (NE : forall t, 0 <= t <= 3 -> eval_t x103 t <> Emp).
  { intros t Ht E. pose proof (TubeFacts.eval_t_in 0 3 x103 (fun t => t) t Ok H) as V. cbv beta in V. rewrite E in V. exact V. }
  split; auto. split; auto. split; auto. destruct (C103_to2 x103 0 3 Ok) as (z & E & _ & _ & _ & G & _ & F & V). exists z.
  split; auto. split; [apply G; exists (mkS 0 1 (I2 0 2) (I2 0 0) (I2 1 1)); split; [left; auto|right; reflexivity]|]. split; [apply F; auto|].
  intros v. rewrite <- V by (auto; lra).
  rewrite (eval_t_slice 0 3 x103 0 (mkS 0 1 (I2 0 2) (I2 0 0) (I2 1 1)) 1 Ok eq_refl) by (cbn; lra).
  change 1 with (s_ub (mkS 0 1 (I2 0 2) (I2 0 0) (I2 1 1))) at 1. rewrite slice_eval_ub by (cbn; lra). cbn. lra.
Qed.

Print Assumptions C103_to1.
Print Assumptions C103_to1_traj.
Print Assumptions C103_to2.
Print Assumptions C103_round.
Print Assumptions C103_unbounded_refuted.
