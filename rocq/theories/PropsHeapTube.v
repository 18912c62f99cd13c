(** * Memory of tubes (C110): no invalid access, no double delete, no leak, and the values are those of the list model *)
From Coq Require Import Reals Lra Bool List Arith Lia.
From Verif Require Import Itv Arith Tube TubeSpec TubeFacts TubeOps TubeOpsFacts Concrete HeapTube HeapTubeFacts.
Import ListNotations.
Open Scope R_scope.

(** ** Specification *)
(** The memory holds exactly the tubes [v], one for each object ([] for an object without structure: not constructed, default
    or destroyed): [L i] and [G i] are the slices and the gates of the object [i].  Each slice and each gate of the memory
    belongs to exactly one object, so nothing is lost or shared. *)
Record wok (w : world) (v : nat -> tube) (L G : nat -> list nat) : Prop := {
  wk_ok : hok (mem w);
  wk_some : forall i, v i <> [] -> rep (mem w) (L i) (G i) (v i) /\ tb w i = hd_error (L i);
  wk_none : forall i, v i = [] -> L i = [] /\ G i = [] /\ tb w i = None;
  wk_disj : forall i j a, List.In a (L i) -> List.In a (L j) -> i = j;
  wk_disjg : forall i j g, List.In g (G i) -> List.In g (G j) -> i = j;
  wk_all : forall a s, hsl (mem w) a = Some s -> exists i, List.In a (L i);
  wk_allg : forall g y, hgt (mem w) g = Some y -> exists i, List.In g (G i) }.
Definition holds (w : world) (v : nat -> tube) : Prop := exists L G, wok w v L G.

(** values of the objects after one call *)
Definition fset {A} (f : nat -> A) (d : nat) (y : A) : nat -> A := fun i => if Nat.eqb i d then y else f i.
Definition vexec (v : nat -> tube) (o : hop) : nat -> tube :=
  match o with
  | HNew d l u y => fset v d [slice_new l u y]
  | HAssign d s => fset v d (v s)
  | HKill d => fset v d []
  | HSample d t => fset v d (sample t (v d))
  | HRemove d t => fset v d (remove_gate t (v d))
  | HSet d k y => fset v d (slice_set k y (v d))
  | HEnvelope d k y c => fset v d (set_envelope k y c (v d))
  | HIn d k g c => fset v d (set_input_gate k g c (v d))
  | HOut d k g c => fset v d (set_output_gate k g c (v d))
  end.
Definition vrun (v : nat -> tube) (ops : list hop) : nat -> tube := fold_left vexec ops v.
(** calls allowed by the assertions of the code; an assignment is from another, non default, object *)
Definition hvalid (v : nat -> tube) (o : hop) : Prop :=
  match o with
  | HNew d l u _ => v d = [] /\ l < u
  | HAssign d s => d <> s /\ v s <> []
  | HKill d => True
  | HSample d t => exists s, nth_error (v d) (time_to_index t (v d)) = Some s /\ s_lb s <= t <= s_ub s
  | HRemove d t => exists k s1 s2, time_to_index t (v d) = S k /\ nth_error (v d) k = Some s1 /\ nth_error (v d) (S k) = Some s2 /\ s_ub s1 = t /\ s_lb s2 = t
  | HSet d k _ | HEnvelope d k _ _ | HIn d k _ _ | HOut d k _ _ => (k < length (v d))%nat
  end.
Fixpoint all_valid (v : nat -> tube) (ops : list hop) : Prop :=
  match ops with [] => True | o :: r => hvalid v o /\ all_valid (vexec v o) r end.

(** ** Change of one object *)
Lemma fset_eq {A} (f : nat -> A) d y : fset f d y d = y. Proof. unfold fset. rewrite Nat.eqb_refl. reflexivity. Qed.
Lemma fset_neq {A} (f : nat -> A) d y i : i <> d -> fset f d y i = f i.
Proof. intros H. unfold fset. destruct (Nat.eqb_spec i d); congruence. Qed.

Lemma wok_lt w v L G i a : wok w v L G -> List.In a (L i) -> (a < hnxt (mem w))%nat.
Proof.
  intros W I. destruct (v i) as [|s x] eqn:E. { destruct (wk_none _ _ _ _ W i E) as (X & _). rewrite X in I. destruct I. }
  destruct (wk_some _ _ _ _ W i) as [R _]; [congruence|]. eapply rep_lt; eauto. apply W.
Qed.
Lemma wok_ltg w v L G i a : wok w v L G -> List.In a (G i) -> (a < hnxt (mem w))%nat.
Proof.
  intros W I. destruct (v i) as [|s x] eqn:E. { destruct (wk_none _ _ _ _ W i E) as (_ & X & _). rewrite X in I. destruct I. }
  destruct (wk_some _ _ _ _ W i) as [R _]; [congruence|]. eapply rep_ltg; eauto; [apply W|congruence].
Qed.

Lemma step_ok w v L G d h' tb' l' g' y : wok w v L G -> trans (L d) (G d) l' g' (mem w) h' ->
  (y = [] /\ l' = [] /\ g' = [] \/ y <> [] /\ rep h' l' g' y) ->
  (forall i, tb' i = if Nat.eqb i d then hd_error l' else tb w i) ->
  wok (mkW h' tb') (fset v d y) (fset L d l') (fset G d g').
Proof.
  intros W T Hy Ht.
  assert (NewL : forall i a, i <> d -> List.In a (L i) -> ~ List.In a (L d) /\ ~ List.In a l').
  { intros i a N I. assert (X : ~ List.In a (L d)) by (intros J; apply N; eapply wk_disj; eauto). split; auto.
    intros J. assert (A := tr_new _ _ _ _ _ _ T a J X). assert (B := wok_lt _ _ _ _ _ _ W I). lia. }
  assert (NewG : forall i a, i <> d -> List.In a (G i) -> ~ List.In a (G d) /\ ~ List.In a g').
  { intros i a N I. assert (X : ~ List.In a (G d)) by (intros J; apply N; eapply wk_disjg; eauto). split; auto.
    intros J. assert (A := tr_newg _ _ _ _ _ _ T a J X). assert (B := wok_ltg _ _ _ _ _ _ W I). lia. }
  destruct (tr_oth _ _ _ _ _ _ T) as [O1 O2].
  constructor; cbn [mem tb].
  - apply T.
  - intros i N. rewrite Ht. destruct (Nat.eqb_spec i d) as [->|Nd].
    + rewrite !fset_eq in *. destruct Hy as [(E & _)|(_ & R)]; [congruence|auto].
    + rewrite !fset_neq in * by auto. destruct (wk_some _ _ _ _ W i N) as [R E]. split; auto. apply (rep_frame (mem w)); auto.
      * intros a I. destruct (NewL i a Nd I). apply O1. rewrite in_app_iff. tauto.
      * intros g I. destruct (NewG i g Nd I). apply O2. rewrite in_app_iff. tauto.
  - intros i E. rewrite Ht. destruct (Nat.eqb_spec i d) as [->|Nd].
    + rewrite !fset_eq in *. destruct Hy as [(_ & -> & ->)|(N & _)]; [auto|congruence].
    + rewrite !fset_neq in * by auto. apply W; auto.
  - intros i j a I J. destruct (Nat.eq_dec i d) as [->|Ni], (Nat.eq_dec j d) as [->|Nj]; auto; rewrite ?fset_eq, ?fset_neq in * by auto.
    + destruct (NewL j a Nj J). tauto.
    + destruct (NewL i a Ni I). tauto.
    + eapply wk_disj; eauto.
  - intros i j a I J. destruct (Nat.eq_dec i d) as [->|Ni], (Nat.eq_dec j d) as [->|Nj]; auto; rewrite ?fset_eq, ?fset_neq in * by auto.
    + destruct (NewG j a Nj J). tauto.
    + destruct (NewG i a Ni I). tauto.
    + eapply wk_disjg; eauto.
  - intros a s E. destruct (in_dec Nat.eq_dec a l') as [I|N]. { exists d. rewrite fset_eq. auto. }
    destruct (in_dec Nat.eq_dec a (L d)) as [I|N2]. { rewrite (tr_free _ _ _ _ _ _ T a I N) in E. discriminate. }
    rewrite O1 in E by (rewrite in_app_iff; tauto). destruct (wk_all _ _ _ _ W a s E) as (i & I). exists i. rewrite fset_neq; auto. intros ->. auto.
  - intros a s E. destruct (in_dec Nat.eq_dec a g') as [I|N]. { exists d. rewrite fset_eq. auto. }
    destruct (in_dec Nat.eq_dec a (G d)) as [I|N2]. { rewrite (tr_freeg _ _ _ _ _ _ T a I N) in E. discriminate. }
    rewrite O2 in E by (rewrite in_app_iff; tauto). destruct (wk_allg _ _ _ _ W a s E) as (i & I). exists i. rewrite fset_neq; auto. intros ->. auto.
Qed.

(** destruction of the structure of an object, whether it has one or not *)
Lemma destroy_obj w v L G d fuel : wok w v L G -> (length (v d) <= fuel)%nat ->
  exists h', destroy fuel (mem w) (tb w d) = Done h' /\ gone (L d) (G d) (mem w) h' /\ hok h'.
Proof.
  intros W F. destruct (v d) as [|s x] eqn:E.
  - destruct (wk_none _ _ _ _ W d E) as (-> & -> & ->). exists (mem w). split; [destruct fuel; reflexivity|]. split; [|apply W]. split; [|split; [|split; [apply others_refl|reflexivity]]]; intros a [].
  - destruct (wk_some _ _ _ _ W d) as [R ->]; [congruence|]. rewrite <- E in F. destruct (destroy_spec _ _ _ _ fuel R) as (h' & E1 & G1); [congruence|auto|].
    exists h'. split; auto. split; auto. destruct G1 as (A & B & (C & D) & N). intros b Lb. rewrite N in Lb. destruct (wk_ok _ _ _ _ W b Lb).
    rewrite C, D; auto; intros I; [apply (wok_ltg _ _ _ _ _ _ W) in I|apply (wok_lt _ _ _ _ _ _ W) in I]; lia.
Qed.

(** one object is changed: [d] has the new slices [l'], fresh or already its own, the other objects keep theirs *)
Definition steps (w : world) (v : nat -> tube) (L G : nat -> list nat) (d : nat) (w' : world) (y : tube) (l' : list nat) : Prop :=
  exists g', wok w' (fset v d y) (fset L d l') (fset G d g') /\ (forall a, List.In a l' -> ~ List.In a (L d) -> (hnxt (mem w) <= a)%nat) /\
    (hnxt (mem w) <= hnxt (mem w'))%nat.
Lemma steps_holds w v L G d w' y l' : steps w v L G d w' y l' -> holds w' (fset v d y).
Proof. intros (g' & W & _). exists (fset L d l'), (fset G d g'). auto. Qed.

Lemma kill_steps w v L G fuel d : wok w v L G -> (length (v d) <= fuel)%nat -> exists w', kill fuel w d = Done w' /\ steps w v L G d w' [] [].
Proof.
  intros W F. destruct (destroy_obj _ _ _ _ d fuel W F) as (h' & E & (A & B & C & D) & K). unfold kill. rewrite E. cbn [obind].
  eexists. split; [reflexivity|]. exists []. split; [|split; [intros a []|cbn [mem]; lia]]. apply (step_ok w); auto.
  constructor; auto; [|intros a []|intros a []|lia]. rewrite !app_nil_r. auto.
Qed.
Lemma kill_ok w v fuel d : holds w v -> (length (v d) <= fuel)%nat -> exists w', kill fuel w d = Done w' /\ holds w' (fset v d []).
Proof. intros (L & G & W) F. destruct (kill_steps _ _ _ _ fuel d W F) as (w' & E & T). exists w'. split; auto. eapply steps_holds; eauto. Qed.

Lemma assign_steps w v L G fuel d s : wok w v L G -> d <> s -> v s <> [] -> (length (v d) <= fuel)%nat -> (length (v s) <= fuel)%nat ->
  exists w' l', assign fuel w d s = Done w' /\ steps w v L G d w' (v s) l'.
Proof.
  intros W N NE F1 F2. destruct (destroy_obj _ _ _ _ d fuel W F1) as (h1 & E & (A & B & C & D) & K). unfold assign. rewrite E. cbn [obind].
  destruct (wk_some _ _ _ _ W s NE) as [R ->].
  assert (R1 : rep h1 (L s) (G s) (v s)).
  { apply (rep_others (mem w) h1 _ _ (L d) (G d)); auto; intros a I J; apply N; [eapply wk_disj|eapply wk_disjg]; eauto. }
  destruct (copy_spec h1 _ _ _ fuel K R1 NE F2) as (h2 & lc & gc & E2 & K2 & R2 & B1 & B2 & O2). rewrite E2. cbn [obind fst snd].
  eexists. exists lc. split; [reflexivity|]. exists gc.
  assert (HL : exists n, hd_error lc = Some n). { destruct lc; [|cbn; eauto]. assert (X := rp_len _ _ _ _ R2). destruct (v s); [congruence|discriminate]. } destruct HL as (n & HL). rewrite HL.
  assert (MX : (hnxt (mem w) <= hnxt h2)%nat).
  { rewrite <- D. destruct lc as [|a lc]; [discriminate|]. assert (X := B1 a (or_introl eq_refl)). lia. }
  split; [|split; [intros a I _; apply B1 in I; lia|exact MX]]. apply (step_ok w); auto.
  - destruct C as [C1 C2], O2 as [O3 O4]. constructor; auto.
    + split; intros a I; rewrite in_app_iff in I; [rewrite O3, C1|rewrite O4, C2]; tauto.
    + intros a I J. rewrite O3 by auto. auto.
    + intros a I J. rewrite O4 by auto. auto.
    + intros a I _. apply B1 in I. lia.
    + intros a I _. apply B2 in I. lia.
  - intros i. rewrite HL. reflexivity.
Qed.
Lemma assign_ok w v fuel d s : holds w v -> d <> s -> v s <> [] -> (length (v d) <= fuel)%nat -> (length (v s) <= fuel)%nat ->
  exists w', assign fuel w d s = Done w' /\ holds w' (fset v d (v s)).
Proof. intros (L & G & W) N NE F1 F2. destruct (assign_steps _ _ _ _ fuel d s W N NE F1 F2) as (w' & l' & E & T). exists w'. split; auto. eapply steps_holds; eauto. Qed.

Lemma heap_steps w v L G d h' y l' gs' : wok w v L G -> v d <> [] -> y <> [] -> rep h' l' gs' y -> hd_error l' = hd_error (L d) ->
  trans (L d) (G d) l' gs' (mem w) h' -> steps w v L G d (mkW h' (tb w)) y l'.
Proof.
  intros W N Ny R Hd T. destruct (wk_some _ _ _ _ W d N) as [_ Et]. exists gs'. split; [|split; [apply (tr_new _ _ _ _ _ _ T)|apply (tr_nxt _ _ _ _ _ _ T)]].
  apply (step_ok w); auto. intros i. destruct (Nat.eqb_spec i d) as [->|]; auto. congruence.
Qed.
Lemma on_ok w v L G d f y : wok w v L G -> v d <> [] -> y <> [] ->
  (exists h' l' gs', f (mem w) (hd_error (L d)) = Done h' /\ rep h' l' gs' y /\ hd_error l' = hd_error (L d) /\ trans (L d) (G d) l' gs' (mem w) h') ->
  exists w', on w d f = Done w' /\ holds w' (fset v d y).
Proof.
  intros W N Ny (h' & l' & gs' & E & R & Hd & T). destruct (wk_some _ _ _ _ W d N) as [_ Et]. unfold on. rewrite Et, E. cbn [obind]. eexists. split; [reflexivity|].
  apply (steps_holds w v L G d _ y l'). apply (heap_steps w v L G d h' y l' gs'); auto.
Qed.
Lemma nth_slice_ok h l gs x k a : rep h l gs x -> nth_error l k = Some a -> forall j, (j <= k)%nat -> nth_slice h (nth_error l (k - j)) j = Done a.
Proof.
  intros R E. induction j as [|j IH]; intros Lj.
  - rewrite Nat.sub_0_r, E. reflexivity.
  - assert (Lk : (k < length l)%nat) by (apply nth_error_Some; congruence).
    destruct (nth_error l (k - S j)) as [b|] eqn:Eb; [|apply nth_error_None in Eb; lia]. destruct (rep_slice _ _ _ _ _ _ R Eb) as (s & Es).
    cbn [nth_slice]. rewrite (rd_spec _ _ _ _ _ _ _ R Eb Es). cbn [obind h_next]. replace (S (k - S j))%nat with (k - j)%nat by lia. apply IH. lia.
Qed.
Lemma setter_ok w v d k f F : holds w v -> (k < length (v d))%nat -> length (F (v d)) = length (v d) ->
  (forall h l gs x a, rep h l gs x -> nth_error l k = Some a -> does h l gs (f h a) (F x)) ->
  exists w', on w d (fun h p => a <- nth_slice h p k ;; f h a) = Done w' /\ holds w' (fset v d (F (v d))).
Proof.
  intros (L & G & W) Lk LF Hf. assert (N : v d <> []) by (intros E; rewrite E in Lk; cbn in Lk; lia). apply (on_ok w v L G); auto.
  { intros E. rewrite E in LF. cbn in LF. lia. }
  destruct (wk_some _ _ _ _ W d N) as [R _]. destruct (nth_error (L d) k) as [a|] eqn:Ea. 2:{ apply nth_error_None in Ea. rewrite (rp_len _ _ _ _ R) in Ea. lia. }
  destruct (does_trans _ _ _ _ _ _ (wk_ok _ _ _ _ W) R N (Hf _ _ _ _ a R Ea)) as (h' & E & R' & T). exists h', (L d), (G d). split; auto.
  assert (X := nth_slice_ok _ _ _ _ k a R Ea k (le_n k)). rewrite Nat.sub_diag in X. replace (hd_error (L d)) with (nth_error (L d) 0) by (destruct (L d); reflexivity).
  rewrite X. cbn [obind]. auto.
Qed.

Lemma new_steps w v L G d l u y : wok w v L G -> v d = [] ->
  steps w v L G d (mkW (snd (new_slice (mem w) l u y y y)) (fun i => if Nat.eqb i d then Some (fst (new_slice (mem w) l u y y y)) else tb w i)) [slice_new l u y] [hnxt (mem w)].
Proof.
  intros W V. destruct (wk_none _ _ _ _ W d V) as (EL & EG & ET). unfold new_slice. cbn [fst snd].
  set (n := hnxt (mem w)). exists [n; S n]. assert (K := wk_ok _ _ _ _ W).
  split; [|split; [intros a [<-|[]] _; apply le_n|cbn [mem hnxt]; unfold n; lia]].
  apply (step_ok w); auto.
  - rewrite EL, EG. cbn [app]. constructor; cbn [hsl hgt hnxt mem].
    + split; intros a I; cbn in I; cbn [hsl hgt app]; rewrite !put_neq; auto; intros ->; apply I; cbn; auto.
    + intros a [].
    + intros a [].
    + intros a [<-|[]] _. unfold n. lia.
    + intros a [<-|[<-|[]]] _; unfold n; lia.
    + intros a La. cbn [hnxt] in La. cbn [hsl hgt]. rewrite !put_neq by (unfold n; lia). apply K. unfold n in *. lia.
    + unfold n. lia.
  - right. split; [discriminate|]. apply (seg_rep _ [n] [n]); cbn [app].
    + cbn. rewrite !put_eq. rewrite put_neq by lia. rewrite put_eq. auto.
    + repeat constructor. auto.
    + repeat constructor; cbn; auto. intros [X|[]]. lia.
Qed.

(** ** One call *)
Lemma slice_set_len k y x : length (slice_set k y x) = length x.
Proof. unfold slice_set. rewrite !put_gate_len, upd_length. auto. Qed.
Lemma sample_ne t x : x <> [] -> sample t x <> [].
Proof.
  intros N. destruct x as [|s x]; [congruence|]. cbn. assert (forall r, sample_slice t s r <> []).
  { intros r. unfold sample_slice. destruct (_ || _); [discriminate|]. destruct (chain_rest _ r). discriminate. }
  destruct (Rltb t (s_ub s)); auto. destruct x; auto. discriminate.
Qed.
Lemma merge_ne k x : x <> [] -> merge_at k x <> [].
Proof.
  intros N. unfold merge_at. destruct (nth_error x k) eqn:E1; auto. destruct (nth_error x (S k)) eqn:E2; auto. cbv zeta. intros E.
  assert (X := app_length). apply (f_equal (@length _)) in E. rewrite app_length, firstn_length, upd_length, set_envelope_len in E. cbn [length] in E.
  assert (k < length x)%nat by (apply nth_error_Some; congruence). lia.
Qed.

(** number of slices that bounds the loops of a call *)
Definition bound (v : nat -> tube) (o : hop) : nat :=
  match o with HAssign d s => length (v d) + length (v s) | HKill d | HSample d _ | HRemove d _ => length (v d) | _ => 0 end.

Fixpoint bounds (v : nat -> tube) (ops : list hop) : nat :=
  match ops with [] => 0%nat | o :: r => Nat.max (bound v o) (bounds (vexec v o) r) end.

Lemma hexec_ok w v fuel o : holds w v -> hvalid v o -> (bound v o <= fuel)%nat -> exists w', hexec fuel w o = Done w' /\ holds w' (vexec v o).
Proof.
  intros H V F. destruct o as [d l u y|d s|d|d t|d t|d k y|d k y c|d k g c|d k g c]; cbn [hexec vexec hvalid bound] in *.
  - destruct V as [V _]. destruct H as (L & G & W). eexists. split; [reflexivity|]. eapply steps_holds. apply (new_steps w v L G d l u y W V).
  - destruct V as [N NE]. apply assign_ok; auto; lia.
  - apply kill_ok; auto.
  - destruct V as (s & Es & T). destruct H as (L & G & W). assert (N : v d <> []) by (eapply nonempty_at; eauto). apply (on_ok w v L G); auto. { apply sample_ne; auto. }
    destruct (wk_some _ _ _ _ W d N) as [R _]. apply (sample_spec _ _ _ _ t fuel s); auto. apply W.
  - destruct V as (k & s1 & s2 & I & E1 & E2 & U1 & U2). destruct H as (L & G & W). assert (N : v d <> []) by (eapply nonempty_at; eauto). apply (on_ok w v L G); auto.
    { unfold remove_gate. destruct (time_to_index t (v d)); auto. apply merge_ne; auto. }
    destruct (wk_some _ _ _ _ W d N) as [R _]. apply (remove_spec _ _ _ _ t fuel k s1 s2); auto. apply W.
  - apply (setter_ok w v d k (fun h a => hslice_set h a y) (slice_set k y)); auto using slice_set_len. intros. apply slice_set_does; auto.
  - apply (setter_ok w v d k (fun h a => hset_envelope h a y c) (set_envelope k y c)); auto using set_envelope_len. intros. apply set_envelope_does; auto.
  - apply (setter_ok w v d k (fun h a => hset_input_gate h a g c) (set_input_gate k g c)); auto. { apply put_gate_len. } intros. apply set_input_gate_does; auto.
  - apply (setter_ok w v d k (fun h a => hset_output_gate h a g c) (set_output_gate k g c)); auto. { apply put_gate_len. } intros. apply set_output_gate_does; auto.
Qed.

(** ** C110: theorems *)
(** Any sequence of allowed calls runs without invalid access or double delete, the loops end, and the memory then holds
    exactly the tubes computed on lists. *)
Theorem C110_programs : forall ops w v, holds w v -> all_valid v ops ->
  exists N, forall fuel, (N <= fuel)%nat -> exists w', hrun fuel w ops = Done w' /\ holds w' (vrun v ops).
Proof.
  intros ops w v H V. exists (bounds v ops). revert w v H V. induction ops as [|o ops IH]; intros w v H V fuel F; cbn [hrun vrun fold_left]; [exists w; auto|].
  destruct V as [V1 V2]. cbn [bounds] in F. destruct (hexec_ok w v fuel o H V1) as (w1 & E1 & H1); [lia|]. rewrite E1. cbn [obind]. apply (IH w1 (vexec v o)); auto. lia.
Qed.

(** The memory is empty again once each object is destroyed. *)
Theorem C110_no_leak : forall w v, holds w v -> (forall i, v i = []) -> forall a, hsl (mem w) a = None /\ hgt (mem w) a = None.
Proof.
  intros w v (L & G & W) H a. split.
  - destruct (hsl (mem w) a) as [s|] eqn:E; auto. destruct (wk_all _ _ _ _ W a s E) as (i & I). destruct (wk_none _ _ _ _ W i (H i)) as (X & _). rewrite X in I. destruct I.
  - destruct (hgt (mem w) a) as [s|] eqn:E; auto. destruct (wk_allg _ _ _ _ W a s E) as (i & I). destruct (wk_none _ _ _ _ W i (H i)) as (_ & X & _). rewrite X in I. destruct I.
Qed.

(** Two objects never share a slice or a gate: a call on one of them leaves the other one as it is. *)
Theorem C110_separate : forall w v o d, holds w v -> hvalid v o ->
  (match o with HNew i _ _ _ | HAssign i _ | HKill i | HSample i _ | HRemove i _ | HSet i _ _ | HEnvelope i _ _ _ | HIn i _ _ _ | HOut i _ _ _ => i <> d end) ->
  exists N, forall fuel, (N <= fuel)%nat -> exists w', hexec fuel w o = Done w' /\ tb w' d = tb w d /\ holds w' (vexec v o) /\ vexec v o d = v d.
Proof.
  intros w v o d H V Hd. exists (bound v o). intros fuel F. destruct (hexec_ok w v fuel o H V F) as (w' & E & H'). exists w'. split; auto.
  assert (X : vexec v o d = v d) by (destruct o; cbn; apply fset_neq; congruence). split; [|auto].
  assert (Y : forall f i, on w i f = Done w' -> tb w' = tb w). { intros f i. unfold on. destruct (f _ _); cbn; try discriminate. intros K. injection K as <-. reflexivity. }
  destruct o as [i l u y|i s|i|i t|i t|i k y|i k y c|i k g c|i k g c]; cbn [hexec] in E; try (rewrite (Y _ _ E); reflexivity).
  - injection E as <-. cbn [tb]. destruct (Nat.eqb_spec d i); congruence.
  - unfold assign in E. destruct (destroy _ _ _); cbn [obind] in E; try discriminate. destruct (copy_loop _ _ _ _ _) as [[[n|] h]| |]; cbn [obind fst snd] in E; try discriminate; injection E as <-; cbn [tb]; auto. destruct (Nat.eqb_spec d i); congruence.
  - unfold kill in E. destruct (destroy _ _ _); cbn [obind] in E; try discriminate. injection E as <-. cbn [tb]. destruct (Nat.eqb_spec d i); congruence.
Qed.

(** *** The two assignments that are not allowed *)
(** [x = x] deletes the slices of x, then copies them from x: access to a deleted slice. *)
Theorem C110_self_assign : forall w v d fuel, holds w v -> v d <> [] -> (length (v d) <= fuel)%nat -> hexec fuel w (HAssign d d) = Undef.
Proof.
  intros w v d fuel (L & G & W) N F. cbn [hexec]. destruct (destroy_obj _ _ _ _ d fuel W F) as (h' & E & (A & _) & _). unfold assign. rewrite E. cbn [obind].
  destruct (wk_some _ _ _ _ W d N) as [R ->]. destruct (L d) as [|a l] eqn:EL. { assert (X := rp_len _ _ _ _ R). destruct (v d); [congruence|discriminate]. }
  cbn [hd_error]. destruct fuel as [|fuel]. { destruct (v d); [congruence|cbn in F; lia]. } cbn [copy_loop]. unfold copy_slice, rd. rewrite (A a) by (left; auto). reflexivity.
Qed.
(** [x = Tube()] deletes the slices of x and keeps the pointer to the first one: the destructor of x deletes it again. *)
Theorem C110_default_source : forall w v d s fuel, holds w v -> v d <> [] -> v s = [] -> (length (v d) <= fuel)%nat ->
  exists w', hexec fuel w (HAssign d s) = Done w' /\ hexec fuel w' (HKill d) = Undef.
Proof.
  intros w v d s fuel (L & G & W) N Es F. cbn [hexec]. destruct (destroy_obj _ _ _ _ d fuel W F) as (h' & E & (A & _) & _). unfold assign. rewrite E. cbn [obind].
  destruct (wk_none _ _ _ _ W s Es) as (_ & _ & ->). destruct (wk_some _ _ _ _ W d N) as [R Et]. destruct (L d) as [|a l] eqn:EL. { assert (X := rp_len _ _ _ _ R). destruct (v d); [congruence|discriminate]. }
  destruct fuel as [|fuel]. { destruct (v d); [congruence|cbn in F; lia]. } cbn [copy_loop obind fst snd]. eexists. split; [reflexivity|].
  unfold kill. cbn [mem tb]. rewrite Et. cbn [hd_error destroy]. unfold rd. rewrite (A a) by (left; auto). reflexivity.
Qed.

(** *** Vectors of tubes *)
Definition vkill (v : nat -> tube) (ds : list nat) (i : nat) : tube := if in_dec Nat.eq_dec i ds then [] else v i.

Lemma holds_ext w v v' : holds w v -> (forall i, v' i = v i) -> holds w v'.
Proof. intros (L & G & W) H. exists L, G. constructor; try apply W; intros i; rewrite H; apply W. Qed.
Lemma kill_all_ok fuel : forall ds w v, holds w v -> (forall d, List.In d ds -> (length (v d) <= fuel)%nat) -> exists w', kill_all fuel w ds = Done w' /\ holds w' (vkill v ds).
Proof.
  induction ds as [|d ds IH]; intros w v H F; cbn [kill_all].
  - exists w. split; auto.
  - destruct (kill_ok w v fuel d H) as (w1 & E1 & H1); [apply F; left; auto|]. rewrite E1. cbn [obind]. destruct (IH w1 (fset v d []) H1) as (w2 & E2 & H2).
    { intros i I. destruct (Nat.eq_dec i d) as [->|N]; [rewrite fset_eq; cbn; lia|rewrite fset_neq by auto; apply F; right; auto]. }
    exists w2. split; auto. apply (holds_ext _ _ _ H2). intros i. unfold vkill. destruct (in_dec Nat.eq_dec i (d :: ds)) as [I|N], (in_dec Nat.eq_dec i ds) as [I2|N2]; auto.
    + destruct I as [<-|I]; [rewrite fset_eq; auto|tauto].
    + exfalso. apply N. right; auto.
    + rewrite fset_neq; auto. intros ->. apply N. left; auto.
Qed.
Lemma assign_all_ok fuel : forall ds ss w v, holds w v -> NoDup ds -> length ds = length ss -> (forall d, List.In d ds -> ~ List.In d ss /\ v d = []) ->
  (forall s, List.In s ss -> v s <> [] /\ (length (v s) <= fuel)%nat) ->
  exists w' v', assign_all fuel w ds ss = Done w' /\ holds w' v' /\ (forall i, ~ List.In i ds -> v' i = v i) /\
    (forall k d s, nth_error ds k = Some d -> nth_error ss k = Some s -> v' d = v s).
Proof.
  induction ds as [|d ds IH]; intros [|s ss] w v H N Le Hd Hs; try discriminate; cbn [assign_all].
  - exists w, v. split; [reflexivity|]. split; auto. split; auto. intros [|k]; discriminate.
  - inversion N as [|? ? N1 N2]; subst. destruct (Hd d (or_introl eq_refl)) as [D1 D2]. destruct (Hs s (or_introl eq_refl)) as [S1 S2].
    destruct (assign_ok w v fuel d s H) as (w1 & E1 & H1); auto. { intros ->. apply D1. left; auto. } { rewrite D2. cbn. lia. } rewrite E1. cbn [obind].
    destruct (IH ss w1 (fset v d (v s)) H1 N2) as (w2 & v2 & E2 & H2 & P1 & P2).
    { cbn in Le. lia. }
    { intros i I. destruct (Hd i (or_intror I)) as [A B]. split; [intros J; apply A; right; auto|]. rewrite fset_neq; auto. intros ->. auto. }
    { intros i I. rewrite fset_neq. { apply Hs. right; auto. } intros ->. apply D1. right; auto. }
    exists w2, v2. split; auto. split; auto. split.
    + intros i I. rewrite P1 by (intros J; apply I; right; auto). apply fset_neq. intros ->. apply I. left; auto.
    + intros [|k] i j Ei Ej; cbn in Ei, Ej.
      * injection Ei as <-. injection Ej as <-. rewrite P1 by auto. apply fset_eq.
      * rewrite (P2 k i j Ei Ej). apply fset_neq. intros ->. apply D1. right. eapply nth_error_In; eauto.
Qed.
Lemma self_all fuel : forall ds w, (forall d, List.In d ds -> tb w d = None) -> assign_all fuel w ds ds = Done w.
Proof.
  induction ds as [|d ds IH]; intros w H; cbn [assign_all]; auto. unfold assign. rewrite (H d (or_introl eq_refl)).
  assert (E : destroy fuel (mem w) None = Done (mem w)) by (destruct fuel; reflexivity). rewrite E. cbn [obind].
  assert (E2 : copy_loop fuel (mem w) None None None = Done (None, mem w)) by (destruct fuel; reflexivity). rewrite E2. cbn [obind fst snd].
  replace (mkW (mem w) (tb w)) with w by (destruct w; reflexivity). apply IH. intros i I. apply H. right; auto.
Qed.

(** The assignment of another vector: the previous components are destroyed, each new component holds the values of the
    component of the source, the source and the other objects are as before. *)
Theorem C110_vector : forall w v old src new, holds w v -> NoDup new -> length new = length src ->
  (forall d, List.In d new -> ~ List.In d src /\ ~ List.In d old /\ v d = []) ->
  (forall s, List.In s src -> v s <> [] /\ ~ List.In s old) ->
  exists N, forall fuel, (N <= fuel)%nat -> exists w' v', vec_assign fuel w false old src new = Done w' /\ holds w' v' /\
    (forall k d s, nth_error new k = Some d -> nth_error src k = Some s -> v' d = v s) /\
    (forall d, List.In d old -> v' d = []) /\ (forall i, ~ List.In i old -> ~ List.In i new -> v' i = v i).
Proof.
  intros w v old src new H N Le Hn Hs. exists (list_max (map (fun i => length (v i)) (old ++ src))). intros fuel F.
  assert (Fi : forall i, List.In i (old ++ src) -> (length (v i) <= fuel)%nat).
  { intros i I. apply (list_max_le _ fuel) in F. rewrite Forall_forall in F. apply F. apply in_map_iff. eauto. }
  unfold vec_assign. destruct (kill_all_ok fuel old w v H) as (w1 & E1 & H1). { intros d I. apply Fi. apply in_or_app; auto. } rewrite E1. cbn [obind].
  assert (Out : forall i, ~ List.In i old -> vkill v old i = v i) by (intros i I; unfold vkill; destruct (in_dec Nat.eq_dec i old); tauto).
  destruct (assign_all_ok fuel new src w1 (vkill v old) H1 N Le) as (w2 & v2 & E2 & H2 & P1 & P2).
  - intros d I. destruct (Hn d I) as (A & B & C). split; auto. rewrite Out; auto.
  - intros s I. destruct (Hs s I) as (A & B). rewrite Out by auto. split; auto. apply Fi. apply in_or_app; auto.
  - exists w2, v2. split; auto. split; auto. split; [|split].
    + intros k d s Ed E. rewrite (P2 k d s Ed E). apply Out. destruct (Hs s) as [_ B]; auto. eapply nth_error_In; eauto.
    + intros d I. rewrite P1. { unfold vkill. destruct (in_dec Nat.eq_dec d old); tauto. } intros J. destruct (Hn d J) as (_ & B & _). auto.
    + intros i I J. rewrite P1 by auto. auto.
Qed.
(** [v = v]: the components are destroyed, the new ones are default tubes copied from themselves: the values are lost. *)
Theorem C110_vector_self : forall w v old new, holds w v -> (forall d, List.In d new -> ~ List.In d old /\ v d = []) ->
  exists N, forall fuel, (N <= fuel)%nat -> exists w', vec_assign fuel w true old old new = Done w' /\ holds w' (vkill v old) /\ (forall d, List.In d new -> vkill v old d = []).
Proof.
  intros w v old new H Hn. exists (list_max (map (fun i => length (v i)) old)). intros fuel F.
  assert (Fi : forall i, List.In i old -> (length (v i) <= fuel)%nat).
  { intros i I. apply (list_max_le _ fuel) in F. rewrite Forall_forall in F. apply F. apply in_map_iff. eauto. }
  unfold vec_assign. destruct (kill_all_ok fuel old w v H Fi) as (w1 & E1 & H1). rewrite E1. cbn [obind].
  assert (Z : forall d, List.In d new -> vkill v old d = []). { intros d I. destruct (Hn d I). unfold vkill. destruct (in_dec Nat.eq_dec d old); auto. }
  rewrite self_all. { exists w1. auto. }
  intros d I. destruct H1 as (L & G & W). apply (wk_none _ _ _ _ W). auto.
Qed.

(** ** The allowed calls, for tubes that satisfy the invariants *)
Lemma C110_sample_allowed v d t a b : tube_ok a b (v d) -> a <= t <= b -> hvalid v (HSample d t).
Proof.
  intros Ok T. cbn. destruct (idx_spec (v d) a b t (ok_chain _ _ _ Ok) (ok_ne _ _ _ Ok) T) as (s & E & Hs & _). eauto.
Qed.
Lemma C110_remove_allowed v d k s1 s2 a b : tube_ok a b (v d) -> nth_error (v d) k = Some s1 -> nth_error (v d) (S k) = Some s2 -> hvalid v (HRemove d (s_lb s2)).
Proof.
  intros Ok E1 E2. cbn. assert (C := ok_chain _ _ _ Ok). exists k, s1, s2.
  assert (A : s_ub s1 = s_lb s2 /\ s_lb s2 < s_ub s2).
  { revert C E1 E2. clear. generalize a. generalize (v d). induction k as [|k IH]; intros [|u [|u2 x]] a0 C E1 E2; cbn in E1, E2; try discriminate; try (destruct k; discriminate).
    - injection E1 as <-. injection E2 as <-. cbn in C. destruct C as (C1 & C2 & C3 & C4 & _). split; [congruence|lra].
    - cbn in C. destruct C as (_ & _ & C). eapply (IH (u2 :: x)); eauto. }
  split; [|tauto]. assert (X := idx_le _ (s_lb s2) _ _ E2 (proj2 A)). assert (Y := idx_ge _ _ _ (s_lb s2) _ _ C E2 (Rle_refl _)). lia.
Qed.

(** ** Concrete cases *)
Definition h_empty : heap := mkHeap (fun _ => None) (fun _ => None) 0.
Definition w_empty : world := mkW h_empty (fun _ => None).
Lemma w_empty_ok : holds w_empty (fun _ => []).
Proof. exists (fun _ => []), (fun _ => []). constructor; cbn; try tauto; try discriminate. intros b _. auto. Qed.
(** a tube, sampled twice, copied; the copy is changed and loses a gate; both are destroyed *)
Definition prog1 : list hop :=
  [HNew 0 0 4 (I2 0 1); HSample 0 1; HSample 0 2; HAssign 1 0; HEnvelope 1 1 (I2 0 (1/2)) true; HIn 1 2 (I2 0 (1/4)) true; HRemove 1 1; HAssign 0 1; HKill 0; HKill 1].
Definition pX0 : tube := [slice_new 0 4 (I2 0 1)].
Definition pX1 : tube := [mkS 0 1 (I2 0 1) (I2 0 1) (I2 0 1); mkS 1 4 (I2 0 1) (I2 0 1) (I2 0 1)].
Definition pX2 : tube := [mkS 0 1 (I2 0 1) (I2 0 1) (I2 0 1); mkS 1 2 (I2 0 1) (I2 0 1) (I2 0 1); mkS 2 4 (I2 0 1) (I2 0 1) (I2 0 1)].
Definition pX3 : tube := [mkS 0 1 (I2 0 1) (I2 0 1) (I2 0 (1/2)); mkS 1 2 (I2 0 (1/2)) (I2 0 (1/2)) (I2 0 (1/2)); mkS 2 4 (I2 0 1) (I2 0 (1/2)) (I2 0 1)].
Definition pX4 : tube := [mkS 0 1 (I2 0 1) (I2 0 1) (I2 0 (1/2)); mkS 1 2 (I2 0 (1/2)) (I2 0 (1/2)) (I2 0 (1/4)); mkS 2 4 (I2 0 1) (I2 0 (1/4)) (I2 0 1)].
Definition pX5 : tube := [mkS 0 2 (I2 0 1) (I2 0 1) (I2 0 (1/4)); mkS 2 4 (I2 0 1) (I2 0 (1/4)) (I2 0 1)].
Lemma pE1 : sample 1 pX0 = pX1. Proof. unfold pX0, pX1, slice_new. cbn. reval. unfold sample_slice, chain_rest. cbn. reval. reflexivity. Qed.
Lemma pE2 : sample 2 pX1 = pX2. Proof. unfold pX2, pX1. cbn. reval. unfold sample_slice, chain_rest. cbn. reval. reflexivity. Qed.
Lemma pE3 : set_envelope 1 (I2 0 (1/2)) true pX2 = pX3. Proof. unfold pX3, pX2, set_envelope, put_gate. cbn. reval. reflexivity. Qed.
Lemma pE4 : set_input_gate 2 (I2 0 (1/4)) true pX3 = pX4. Proof. unfold pX3, pX4, set_input_gate, put_gate. cbn. reval. reflexivity. Qed.
Lemma pE5 : remove_gate 1 pX4 = pX5. Proof. unfold remove_gate. cbn. reval. unfold merge_at, set_envelope, put_gate. cbn. reval. reflexivity. Qed.
Definition vv (a b : tube) (i : nat) : tube := match i with 0%nat => a | 1%nat => b | _ => [] end.
Lemma vexec_ext o v v' : (forall i, v i = v' i) -> forall i, vexec v o i = vexec v' o i.
Proof. intros H i. destruct o; cbn; unfold fset; rewrite ?H; destruct (Nat.eqb i _); auto. Qed.
Lemma hvalid_ext o v v' : (forall i, v i = v' i) -> hvalid v o -> hvalid v' o.
Proof. intros H. destruct o; cbn; rewrite ?H; auto. Qed.
Lemma all_valid_ext ops : forall v v', (forall i, v i = v' i) -> all_valid v ops -> all_valid v' ops.
Proof. induction ops as [|o r IH]; intros v v' H; cbn; auto. intros [A B]. split; [eapply hvalid_ext; eauto|]. eapply IH; [|exact B]. apply vexec_ext; auto. Qed.
Lemma vv_step a b a' b' o r : hvalid (vv a b) o -> vexec (vv a b) o 0%nat = a' -> vexec (vv a b) o 1%nat = b' -> (match o with HNew d _ _ _ | HAssign d _ | HKill d | HSample d _ | HRemove d _ | HSet d _ _ | HEnvelope d _ _ _ | HIn d _ _ _ | HOut d _ _ _ => d <= 1 end)%nat ->
  all_valid (vv a' b') r -> all_valid (vv a b) (o :: r).
Proof.
  intros H1 H2 H3 Hd H4. split; auto. apply (all_valid_ext r (vv a' b')); auto. intros [|[|i]]; [auto|auto|]. cbn.
  symmetry. destruct o; cbn; unfold fset; match goal with |- context [Nat.eqb ?x ?y] => destruct (Nat.eqb_spec x y) as [E|E] end; try reflexivity; cbn in E, Hd; lia.
Qed.
Example C110_programs_ex : all_valid (vv [] []) prog1.
Proof.
  apply (vv_step _ _ pX0 []); [cbn; split; [reflexivity|lra]|reflexivity|reflexivity|lia|].
  apply (vv_step _ _ pX1 []); [|exact pE1|reflexivity|lia|]. { cbn. reval. eexists. split; [reflexivity|cbn; lra]. }
  apply (vv_step _ _ pX2 []); [|exact pE2|reflexivity|lia|]. { cbn. reval. eexists. split; [reflexivity|cbn; lra]. }
  apply (vv_step _ _ pX2 pX2); [cbn; split; [lia|discriminate]|reflexivity|reflexivity|lia|].
  apply (vv_step _ _ pX2 pX3); [cbn; lia|reflexivity|exact pE3|lia|].
  apply (vv_step _ _ pX2 pX4); [cbn; lia|reflexivity|exact pE4|lia|].
  apply (vv_step _ _ pX2 pX5); [|reflexivity|exact pE5|lia|]. { cbn. reval. exists 0%nat. do 2 eexists. split; [reflexivity|]. split; [reflexivity|]. split; [reflexivity|]. cbn. lra. }
  apply (vv_step _ _ pX5 pX5); [cbn; split; [lia|discriminate]|reflexivity|reflexivity|lia|].
  apply (vv_step _ _ [] pX5); [exact Logic.I|reflexivity|reflexivity|lia|].
  apply (vv_step _ _ [] []); [exact Logic.I|reflexivity|reflexivity|lia|]. exact Logic.I.
Qed.
Lemma vv_nil i : vv [] [] i = []. Proof. destruct i as [|[|i]]; reflexivity. Qed.
Lemma w_empty_vv : holds w_empty (vv [] []). Proof. apply (holds_ext _ _ _ w_empty_ok). apply vv_nil. Qed.
(** this program runs and leaves an empty memory *)
Example C110_no_leak_ex : exists N, forall fuel, (N <= fuel)%nat -> exists w', hrun fuel w_empty prog1 = Done w' /\ forall a, hsl (mem w') a = None /\ hgt (mem w') a = None.
Proof.
  destruct (C110_programs prog1 w_empty (vv [] []) w_empty_vv C110_programs_ex) as (N & H). exists N. intros fuel F. destruct (H fuel F) as (w' & E & Hw). exists w'. split; auto.
  apply (C110_no_leak w' _ Hw). intros i. unfold vrun, prog1. cbn [fold_left vexec]. unfold fset. destruct i as [|[|i]]; reflexivity.
Qed.
(** a world with one tube of one slice *)
Definition w_one : world := mkW (snd (new_slice h_empty 0 4 (I2 0 1) (I2 0 1) (I2 0 1))) (fun i => if Nat.eqb i 0 then Some 0%nat else None).
Lemma w_one_ok : holds w_one (vv pX0 []).
Proof.
  destruct (hexec_ok w_empty (vv [] []) 0 (HNew 0 0 4 (I2 0 1)) w_empty_vv) as (w' & E & H); [cbn; split; [reflexivity|lra]|cbn; lia|].
  cbn in E. injection E as <-. apply (holds_ext _ _ _ H). intros [|[|i]]; reflexivity.
Qed.
(** The statement "an assignment between two objects never makes an invalid access and leaves the destination destructible" is false. *)
Theorem C110_self_assign_refuted : exists w v d, holds w v /\ v d <> [] /\ forall fuel, (1 <= fuel)%nat -> hexec fuel w (HAssign d d) = Undef.
Proof. exists w_one, (vv pX0 []), 0%nat. split; [exact w_one_ok|]. split; [discriminate|]. intros fuel F. apply (C110_self_assign w_one (vv pX0 [])); auto using w_one_ok. discriminate. Qed.
Theorem C110_default_source_refuted : exists w v d s, d <> s /\ holds w v /\ v d <> [] /\
  forall fuel, (1 <= fuel)%nat -> exists w', hexec fuel w (HAssign d s) = Done w' /\ hexec fuel w' (HKill d) = Undef.
Proof.
  exists w_one, (vv pX0 []), 0%nat, 1%nat. split; [lia|]. split; [exact w_one_ok|]. split; [discriminate|]. intros fuel F.
  apply (C110_default_source w_one (vv pX0 [])); auto using w_one_ok. discriminate.
Qed.
(** The statement "v = v leaves a vector of tubes as it is" is false. *)
Theorem C110_vector_self_refuted : exists w v old new, holds w v /\ length new = length old /\ (forall d, List.In d old -> v d <> []) /\
  exists N, forall fuel, (N <= fuel)%nat -> exists w' v', vec_assign fuel w true old old new = Done w' /\ holds w' v' /\ forall d, List.In d new -> v' d = [].
Proof.
  exists w_one, (vv pX0 []), [0%nat], [1%nat]. split; [exact w_one_ok|]. split; [reflexivity|]. split; [intros d [<-|[]]; discriminate|].
  destruct (C110_vector_self w_one (vv pX0 []) [0%nat] [1%nat] w_one_ok) as (N & H). { intros d [<-|[]]. split; [intros [E|[]]; discriminate|reflexivity]. }
  exists N. intros fuel F. destruct (H fuel F) as (w' & E & Hw & Z). exists w', (vkill (vv pX0 []) [0%nat]). auto.
Qed.
Example C110_vector_ex : exists old src new, NoDup new /\ length new = length src /\ old <> [] /\
  (forall d, List.In d new -> ~ List.In d src /\ ~ List.In d old /\ vv pX0 pX2 d = []) /\ (forall s, List.In s src -> vv pX0 pX2 s <> [] /\ ~ List.In s old).
Proof.
  exists [1%nat], [0%nat], [2%nat]. split; [repeat constructor; auto|]. split; [reflexivity|]. split; [discriminate|]. split.
  - intros d [<-|[]]. split; [intros [E|[]]; discriminate|]. split; [intros [E|[]]; discriminate|reflexivity].
  - intros s [<-|[]]. split; [discriminate|intros [E|[]]; discriminate].
Qed.
Example C110_separate_ex : hvalid (vv pX0 []) (HSample 0 1) /\ (0 <> 1)%nat.
Proof. split; [|lia]. cbn. reval. eexists. split; [reflexivity|cbn; lra]. Qed.

Print Assumptions C110_programs.
Print Assumptions C110_no_leak.
Print Assumptions C110_separate.
Print Assumptions C110_self_assign.
Print Assumptions C110_default_source.
Print Assumptions C110_vector.
Print Assumptions C110_vector_self.
Print Assumptions C110_self_assign_refuted.
Print Assumptions C110_default_source_refuted.
Print Assumptions C110_vector_self_refuted.
