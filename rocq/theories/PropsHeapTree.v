(** * Life of the syntheses of tubes (C111): the tree and the slices that it refers to *)
From Coq Require Import Reals Lra Bool List Arith Lia.
From Verif Require Import Itv Arith Tube TubeSpec TubeFacts TubeOps TubeOpsFacts TubeQueries2 Concrete HeapTube HeapTubeFacts HeapTree HeapTreeFacts PropsHeapTube.
From Verif Require Tree PropsTree.
Import ListNotations.
Open Scope R_scope.

(** ** Specification *)
(** The memory holds exactly the tubes [v] (see C110) and, for each tube with a tree, a tree on its slices: the leaves are the
    slices in the order, with their domains, and the slices refer to this tree; each tree and each polynomial of the memory
    belongs to exactly one tube. *)
Record tok (t : tworld) (v : nat -> tube) (L G : nat -> list nat) : Prop := {
  tk_w : wok (tw t) v L G;
  tk_chain : forall d, v d <> [] -> exists a b, chain_from a (v d) b;
  tk_empty : forall d, v d = [] -> mode t d = MNone;
  tk_tree : forall d, mode t d = MTree -> exists i o, tptr t d = Some i /\ trees t i = Some o /\ t_leaves o = L d /\ PropsTree.shape (PropsTree.skel (t_sh o)) 0 (PropsTree.doms (v d));
  tk_ntree : forall d, mode t d <> MTree -> tptr t d = None;
  tk_poly : forall d, mode t d = MPoly -> exists i, pptr t d = Some i /\ polys t i = true;
  tk_npoly : forall d, mode t d <> MPoly -> pptr t d = None;
  tk_own : forall i o, trees t i = Some o -> exists d, tptr t d = Some i;
  tk_ownp : forall i, polys t i = true -> exists d, pptr t d = Some i;
  tk_inj : forall d d' i, tptr t d = Some i -> tptr t d' = Some i -> d = d';
  tk_injp : forall d d' i, pptr t d = Some i -> pptr t d' = Some i -> d = d';
  tk_lt : forall d i, tptr t d = Some i -> (i < nid t)%nat;
  tk_ltp : forall d i, pptr t d = Some i -> (i < nid t)%nat;
  tk_refs : forall d a, List.In a (L d) -> refs t a = tptr t d;
  tk_fresh : forall a, (hnxt (heap_of t) <= a)%nat -> refs t a = None }.
Definition tholds (t : tworld) (v : nat -> tube) (m : nat -> smode) : Prop := exists L G, tok t v L G /\ forall d, mode t d = m d.

(** values and modes after one call *)
Definition tvexec (v : nat -> tube) (o : top) : nat -> tube :=
  match o with
  | TH o => vexec v o
  | TTree _ | TPoly _ | TNone _ => v
  | TTruncate d a b => fset v d (truncate_tdomain a b (v d))
  | TMerge d close => fset v d (merge_similar_slices close (v d))
  end.
Definition interior (x : tube) (t : R) : bool :=
  match nth_error x (time_to_index t x) with Some s => negb (Reqb (s_lb s) t || Reqb (s_ub s) t) | None => false end.
Definition tmexec (v : nat -> tube) (m : nat -> smode) (o : top) : nat -> smode :=
  match o with
  | TH (HNew d _ _ _) | TH (HAssign d _) | TH (HKill d) | TNone d | TTruncate d _ _ => fset m d MNone
  | TH (HSample d t) => if interior (v d) t then fset m d MNone else m
  | TH _ | TMerge _ _ => m
  | TTree d => fset m d MTree
  | TPoly d => fset m d MPoly
  end.
(** calls allowed: those of C110, and no tree when slices are removed or the structure is replaced *)
Definition tvalid (v : nat -> tube) (m : nat -> smode) (o : top) : Prop :=
  match o with
  | TH (HAssign d s) => hvalid v (HAssign d s) /\ m d <> MTree
  | TH (HRemove d t) => hvalid v (HRemove d t) /\ m d <> MTree
  | TH o => hvalid v o
  | TTree d => v d <> [] /\ m d <> MPoly
  | TPoly d => v d <> [] /\ m d <> MTree
  | TNone d => True
  | TTruncate d a b => m d <> MTree /\ a < b /\ exists u w, chain_from u (v d) w /\ u <= a /\ b <= w
  | TMerge d _ => v d <> [] /\ m d <> MTree
  end.
Fixpoint tall_valid (v : nat -> tube) (m : nat -> smode) (ops : list top) : Prop :=
  match ops with [] => True | o :: r => tvalid v m o /\ tall_valid (tvexec v o) (tmexec v m o) r end.
Definition tvrun (v : nat -> tube) (ops : list top) : nat -> tube := fold_left tvexec ops v.
Fixpoint tmrun (v : nat -> tube) (m : nat -> smode) (ops : list top) : nat -> smode :=
  match ops with [] => m | o :: r => tmrun (tvexec v o) (tmexec v m o) r end.

(** ** Invariant *)
Lemma wok_ext w v L G v' L' G' : wok w v L G -> (forall i, v' i = v i) -> (forall i, L' i = L i) -> (forall i, G' i = G i) -> wok w v' L' G'.
Proof.
  intros [A B C D E F H] Ev El Eg. constructor; auto.
  - intros i. rewrite Ev, El, Eg. auto.
  - intros i. rewrite Ev, El, Eg. auto.
  - intros i j a. rewrite !El. eauto.
  - intros i j a. rewrite !Eg. eauto.
  - intros a s X. destruct (F a s X) as (i & I). exists i. rewrite El. auto.
  - intros a s X. destruct (H a s X) as (i & I). exists i. rewrite Eg. auto.
Qed.
Lemma tok_ext t t' v L G v' L' G' : tok t v L G -> (forall i, v' i = v i) -> (forall i, L' i = L i) -> (forall i, G' i = G i) ->
  tw t' = tw t -> refs t' = refs t -> trees t' = trees t -> polys t' = polys t -> nid t' = nid t ->
  (forall i, mode t' i = mode t i) -> (forall i, tptr t' i = tptr t i) -> (forall i, pptr t' i = pptr t i) -> tok t' v' L' G'.
Proof.
  intros [A B C D E F G0 H I J K M N O P] Ev El Eg W1 W2 W3 W4 W5 W6 W7 W8. constructor.
  - rewrite W1. eapply wok_ext; eauto.
  - intros d. rewrite Ev. auto.
  - intros d. rewrite Ev, W6. auto.
  - intros d. rewrite W6, W7, W3, El, Ev. auto.
  - intros d. rewrite W6, W7. auto.
  - intros d. rewrite W6, W8, W4. auto.
  - intros d. rewrite W6, W8. auto.
  - intros i o. rewrite W3. intros X. destruct (H _ _ X) as (d & Y). exists d. rewrite W7. auto.
  - intros i. rewrite W4. intros X. destruct (I _ X) as (d & Y). exists d. rewrite W8. auto.
  - intros d d' i. rewrite !W7. eauto.
  - intros d d' i. rewrite !W8. eauto.
  - intros d i. rewrite W7, W5. eauto.
  - intros d i. rewrite W8, W5. eauto.
  - intros d a. rewrite El, W2, W7. auto.
  - intros a. unfold heap_of in *. rewrite W1, W2. auto.
Qed.

(** one tube is changed, its tree if any stays valid *)
Lemma tok_step t v L G d w' y l' : tok t v L G -> steps (tw t) v L G d w' y l' -> (y = [] -> mode t d = MNone) -> (y <> [] -> exists a b, chain_from a y b) ->
  (mode t d <> MTree \/ l' = L d /\ PropsTree.doms y = PropsTree.doms (v d)) -> exists G', tok (with_w t w') (fset v d y) (fset L d l') G'.
Proof.
  intros T (g' & W & Fr & Nx) E C HM. exists (fset G d g'). destruct T as [A B Em D E' F G0 H I J K M N O P]. constructor; cbn [with_w tw refs trees polys nid mode tptr pptr]; auto.
  - intros i. destruct (Nat.eq_dec i d) as [->|Ni]; [rewrite fset_eq|rewrite fset_neq]; auto.
  - intros i. destruct (Nat.eq_dec i d) as [->|Ni]; [rewrite fset_eq|rewrite fset_neq]; auto.
  - intros i Mi. destruct (Nat.eq_dec i d) as [->|Ni]; [rewrite !fset_eq|rewrite !fset_neq by auto; auto].
    destruct HM as [HM|[-> Ed]]; [congruence|]. rewrite Ed. auto.
  - intros i a Ia. destruct (Nat.eq_dec i d) as [->|Ni]; [rewrite fset_eq in Ia|rewrite fset_neq in Ia by auto; auto].
    destruct (in_dec Nat.eq_dec a (L d)) as [J'|J']; auto. destruct HM as [HM|[-> _]]; [|tauto]. rewrite E' by auto. apply P. apply Fr; auto.
  - intros a La. apply P. unfold heap_of in *. cbn [with_w tw] in La. lia.
Qed.

(** ** Deletion of the syntheses *)
Lemma clear_refs_ok h : forall l f, (forall a, List.In a l -> hsl h a <> None) ->
  exists f', clear_refs h f l = Done f' /\ forall a, f' a = if in_dec Nat.eq_dec a l then None else f a.
Proof.
  induction l as [|a l IH]; intros f H; cbn [clear_refs]. { exists f. split; auto. }
  unfold rd. destruct (hsl h a) as [s|] eqn:E; [|exfalso; apply (H a); cbn; auto]. cbn [obind].
  destruct (IH (fput f a None)) as (f' & E1 & E2). { intros c I. apply H. right; auto. } exists f'. split; auto. intros c. rewrite E2.
  unfold fput. destruct (in_dec Nat.eq_dec c l) as [I|N], (in_dec Nat.eq_dec c (a :: l)) as [J|M]; auto; destruct (Nat.eqb_spec c a) as [Eca|Nca]; auto; exfalso.
  - apply M. right; auto.
  - apply M. right; auto.
  - destruct J; auto.
  - apply M. left; auto.
Qed.
Lemma clear_refs_undef h a : hsl h a = None -> forall l f, List.In a l -> clear_refs h f l = Undef.
Proof.
  intros E. induction l as [|c l IH]; intros f I; [destruct I|]. cbn [clear_refs]. unfold rd. destruct (hsl h c) as [s|] eqn:Ec; auto. cbn [obind].
  apply IH. destruct I as [<-|I]; auto. congruence.
Qed.
Lemma wok_alive w v L G d a : wok w v L G -> List.In a (L d) -> hsl (mem w) a <> None.
Proof.
  intros W I. destruct (v d) as [|s x] eqn:E. { destruct (wk_none _ _ _ _ W d E) as (X & _). rewrite X in I. destruct I. }
  destruct (wk_some _ _ _ _ W d) as [R _]; [congruence|]. destruct (In_nth_error _ _ I) as (k & Ek). destruct (rep_slice _ _ _ _ _ _ R Ek) as (u & Eu). rewrite (rp_cell _ _ _ _ R k a u Ek Eu). discriminate.
Qed.
Lemma mode_dec (m : smode) n : {m = n} + {m <> n}. Proof. decide equality. Qed.

Lemma delete_tree_ok t v L G d : tok t v L G -> exists t', delete_tree t d = Done t' /\ tok t' v L G /\ tw t' = tw t /\ mode t' d <> MTree /\
  (mode t d <> MTree -> t' = t) /\ (mode t d = MTree -> mode t' d = MNone) /\ forall i, i <> d -> mode t' i = mode t i.
Proof.
  intros T. unfold delete_tree. destruct (mode_dec (mode t d) MTree) as [EM|NM].
  2:{ exists t. split; [destruct (mode t d); auto; congruence|]. split; auto. split; auto. split; auto. split; auto. split; auto. congruence. }
  rewrite EM. destruct (tk_tree _ _ _ _ T d EM) as (i & o & E1 & E2 & E3 & E4). rewrite E1, E2.
  destruct (clear_refs_ok (heap_of t) (t_leaves o) (refs t)) as (f' & F1 & F2). { intros a I. rewrite E3 in I. eapply wok_alive; eauto. apply T. }
  rewrite F1. cbn [obind]. eexists. split; [reflexivity|]. split; [|cbn [tw mode]; split; auto; split; [unfold fput; rewrite Nat.eqb_refl; discriminate|split; [congruence|split; [intros _; unfold fput; rewrite Nat.eqb_refl; auto|intros j Nj; apply fset_neq; auto]]]].
  assert (Md := fset_eq (mode t) d MNone). assert (Mn := fset_neq (mode t) d MNone). assert (Td := fset_eq (tptr t) d None). assert (Tn := fset_neq (tptr t) d None).
  change (@fset) with (@fput) in *.
  assert (Ti : forall j, fput (trees t) i None j = if Nat.eqb j i then None else trees t j) by reflexivity.
  destruct T as [A B Em D E' F G0 H I J K M N O P]. constructor; cbn [tw refs trees polys nid mode tptr pptr heap_of]; auto.
  - intros j Ej. destruct (Nat.eq_dec j d) as [->|Nj]; [auto|rewrite Mn; auto].
  - intros j Ej. destruct (Nat.eq_dec j d) as [->|Nj]; [congruence|]. rewrite Mn in Ej by auto. rewrite Tn by auto. destruct (D j Ej) as (i' & o' & D1 & D2 & D3 & D4).
    exists i', o'. split; auto. split; auto. rewrite Ti. destruct (Nat.eqb_spec i' i) as [->|]; auto. exfalso. apply Nj. eapply J; eauto.
  - intros j Ej. destruct (Nat.eq_dec j d) as [->|Nj]; auto. rewrite Mn in Ej by auto. rewrite Tn by auto. auto.
  - intros j Ej. destruct (Nat.eq_dec j d) as [->|Nj]; [congruence|]. rewrite Mn in Ej by auto. auto.
  - intros j Ej. destruct (Nat.eq_dec j d) as [->|Nj]; [apply G0; congruence|]. rewrite Mn in Ej by auto. auto.
  - intros j o'. rewrite Ti. destruct (Nat.eqb_spec j i) as [->|Nj]; [discriminate|]. intros X. destruct (H _ _ X) as (d' & Y). exists d'. rewrite Tn; auto. intros ->. congruence.
  - intros d1 d2 j X1 X2. destruct (Nat.eq_dec d1 d) as [->|N1]; [congruence|]. destruct (Nat.eq_dec d2 d) as [->|N2]; [congruence|]. rewrite Tn in X1, X2 by auto. eapply J; eauto.
  - intros d1 j X1. destruct (Nat.eq_dec d1 d) as [->|N1]; [congruence|]. rewrite Tn in X1 by auto. eapply M; eauto.
  - intros d1 a Ia. rewrite F2, E3. destruct (Nat.eq_dec d1 d) as [->|N1].
    + destruct (in_dec Nat.eq_dec a (L d)); [auto|tauto].
    + rewrite Tn by auto. destruct (in_dec Nat.eq_dec a (L d)) as [Id|]; auto. exfalso. apply N1. eapply wk_disj; eauto.
  - intros a La. rewrite F2. destruct (in_dec _ _ _); auto.
Qed.
Lemma delete_poly_ok t v L G d : tok t v L G -> exists t', delete_poly t d = Done t' /\ tok t' v L G /\ tw t' = tw t /\ mode t' d <> MPoly /\
  (mode t d <> MTree -> mode t' d = MNone) /\ (forall i, i <> d -> mode t' i = mode t i) /\ (forall i, tptr t' i = tptr t i) /\
  forall w, delete_poly (with_w t w) d = Done (with_w t' w).
Proof.
  intros T. unfold delete_poly. destruct (mode_dec (mode t d) MPoly) as [EM|NM].
  2:{ exists t. split; [destruct (mode t d); auto; congruence|]. split; auto. split; auto. split; auto. split; [intros; destruct (mode t d); congruence|]. split; auto. split; auto.
      intros w. cbn [with_w mode]. destruct (mode t d); auto; congruence. }
  rewrite EM. destruct (tk_poly _ _ _ _ T d EM) as (i & E1 & E2). cbn [with_w mode pptr polys tw refs trees nid tptr]. rewrite EM, E1, E2.
  eexists. split; [reflexivity|].
  assert (Md := fset_eq (mode t) d MNone). assert (Mn := fset_neq (mode t) d MNone). assert (Td := fset_eq (pptr t) d None). assert (Tn := fset_neq (pptr t) d None).
  change (@fset) with (@fput) in *. cbn [tw mode tptr]. split; [|split; [auto|split; [congruence|split; [auto|split; [auto|split; [auto|reflexivity]]]]]].
  assert (Ti : forall j, fput (polys t) i false j = if Nat.eqb j i then false else polys t j) by reflexivity.
  destruct T as [A B Em D E' F G0 H I J K M N O P]. constructor; cbn [tw refs trees polys nid mode tptr pptr heap_of]; auto.
  - intros j Ej. destruct (Nat.eq_dec j d) as [->|Nj]; [auto|rewrite Mn; auto].
  - intros j Ej. destruct (Nat.eq_dec j d) as [->|Nj]; [congruence|]. rewrite Mn in Ej by auto. auto.
  - intros j Ej. destruct (Nat.eq_dec j d) as [->|Nj]; [apply E'; congruence|]. rewrite Mn in Ej by auto. auto.
  - intros j Ej. destruct (Nat.eq_dec j d) as [->|Nj]; [congruence|]. rewrite Mn in Ej by auto. rewrite Tn by auto. destruct (F j Ej) as (i' & D1 & D2).
    exists i'. split; auto. rewrite Ti. destruct (Nat.eqb_spec i' i) as [->|]; auto. exfalso. apply Nj. eapply K; eauto.
  - intros j Ej. destruct (Nat.eq_dec j d) as [->|Nj]; auto. rewrite Mn in Ej by auto. rewrite Tn by auto. auto.
  - intros j. rewrite Ti. destruct (Nat.eqb_spec j i) as [->|Nj]; [discriminate|]. intros X. destruct (I _ X) as (d' & Y). exists d'. rewrite Tn; auto. intros ->. congruence.
  - intros d1 d2 j X1 X2. destruct (Nat.eq_dec d1 d) as [->|N1]; [congruence|]. destruct (Nat.eq_dec d2 d) as [->|N2]; [congruence|]. rewrite Tn in X1, X2 by auto. eapply K; eauto.
  - intros d1 j X1. destruct (Nat.eq_dec d1 d) as [->|N1]; [congruence|]. rewrite Tn in X1 by auto. eapply N; eauto.
Qed.
Lemma delete_synth_ok t v L G d : tok t v L G -> exists t', delete_synth t d = Done t' /\ tok t' v L G /\ tw t' = tw t /\ mode t' d = MNone /\ (forall i, i <> d -> mode t' i = mode t i) /\
  (mode t d <> MTree -> forall w, delete_synth (with_w t w) d = Done (with_w t' w)).
Proof.
  intros T. destruct (delete_tree_ok t v L G d T) as (t1 & E1 & T1 & W1 & M1 & Q1 & _ & O1). destruct (delete_poly_ok t1 v L G d T1) as (t2 & E2 & T2 & W2 & _ & M2 & O2 & _ & Cw).
  exists t2. unfold delete_synth. rewrite E1. cbn [obind]. split; auto. split; auto. split; [congruence|]. split; auto. split; [intros; rewrite O2, O1; auto|].
  intros NM w. rewrite <- (Q1 NM). replace (delete_tree (with_w t1 w) d) with (Done (with_w t1 w)); [cbn [obind]; apply Cw|].
  rewrite (Q1 NM). unfold delete_tree. cbn [with_w mode]. destruct (mode t d); auto. congruence.
Qed.

(** ** Access to the slices *)
Lemma tk_len t v L G d : tok t v L G -> length (L d) = length (v d).
Proof.
  intros T. destruct (v d) as [|s x] eqn:E. { destruct (wk_none _ _ _ _ (tk_w _ _ _ _ T) d E) as (-> & _). reflexivity. }
  rewrite <- E. destruct (wk_some _ _ _ _ (tk_w _ _ _ _ T) d) as [R _]; [congruence|]. apply R.
Qed.
Lemma slice_nth_ok t v L G d k a : tok t v L G -> nth_error (L d) k = Some a -> slice_nth t d k = Done a /\ nth_slice (heap_of t) (tb (tw t) d) k = Done a.
Proof.
  intros T E. assert (Lk : (k < length (v d))%nat) by (rewrite <- (tk_len _ _ _ _ d T); apply nth_error_Some; congruence).
  assert (N : v d <> []) by (intros X; rewrite X in Lk; cbn in Lk; lia). destruct (wk_some _ _ _ _ (tk_w _ _ _ _ T) d N) as [R Et].
  assert (X := nth_slice_ok _ _ _ _ k a R E k (le_n k)). rewrite Nat.sub_diag in X. replace (nth_error (L d) 0) with (hd_error (L d)) in X by (destruct (L d); reflexivity).
  rewrite <- Et in X. split; auto. unfold slice_nth. destruct (mode t d) eqn:EM; auto. destruct (tk_tree _ _ _ _ T d EM) as (i & o & -> & -> & E3 & E4).
  rewrite (PropsTree.tslice_ok _ _ _ k E4), E3 by (rewrite PropsTree.doms_len; auto). cbn [Nat.add]. rewrite E. reflexivity.
Qed.
Lemma slice_at_ok t v L G d x fuel : tok t v L G -> v d <> [] -> (length (v d) <= fuel)%nat ->
  exists a, nth_error (L d) (time_to_index x (v d)) = Some a /\ slice_at fuel t d x = Done a /\ find fuel (heap_of t) x (tb (tw t) d) None = Done a.
Proof.
  intros T N F. destruct (wk_some _ _ _ _ (tk_w _ _ _ _ T) d N) as [R Et]. destruct (rep_seg _ _ _ _ R) as (g0 & gq & _ & S0).
  destruct (find_seg _ x gq (v d) (L d) None g0 fuel None S0 N F) as (x1 & s' & x2 & l1 & a & l2 & E1 & E2 & E3 & E4 & E5 & _).
  assert (Ea : nth_error (L d) (time_to_index x (v d)) = Some a) by (rewrite E2, <- E4, <- E3, nth_error_app2, Nat.sub_diag by lia; reflexivity).
  exists a. rewrite Et. split; auto. split; auto. unfold slice_at. rewrite Et. destruct (mode t d) eqn:EM; auto. destruct (tk_tree _ _ _ _ T d EM) as (i & o & -> & -> & P3 & P4).
  destruct (tk_chain _ _ _ _ T d N) as (u & w & C). rewrite (PropsTree.tslice_t_ok x _ _ _ _ _ P4 (PropsTree.dchain_of _ _ _ C)), PropsTree.dindex_doms, P3. cbn [Nat.add]. rewrite Ea. reflexivity.
Qed.
Lemma hcount_ok h l gs x : rep h l gs x -> forall m k fuel, (m = length x - k)%nat -> (m <= fuel)%nat -> hcount fuel h (nth_error l k) = Done m.
Proof.
  intros R. induction m as [|m IH]; intros k fuel Em Lf.
  - replace (nth_error l k) with (@None nat) by (symmetry; apply nth_error_None; rewrite (rp_len _ _ _ _ R); lia). destruct fuel; reflexivity.
  - destruct (nth_error l k) as [c|] eqn:Ec; [|apply nth_error_None in Ec; rewrite (rp_len _ _ _ _ R) in Ec; lia]. destruct (rep_slice _ _ _ _ _ _ R Ec) as (s & Es).
    destruct fuel as [|fuel]; [lia|]. cbn [hcount]. rewrite (rd_spec _ _ _ _ _ _ _ R Ec Es). cbn [obind h_next]. rewrite (IH (S k) fuel) by lia. reflexivity.
Qed.
Lemma nb_slices_ok t v L G d fuel : tok t v L G -> (length (v d) <= fuel)%nat -> nb_slices fuel t d = Done (length (v d)).
Proof.
  intros T F. unfold nb_slices. destruct (v d) as [|s x] eqn:E.
  - rewrite (tk_empty _ _ _ _ T d E). destruct (wk_none _ _ _ _ (tk_w _ _ _ _ T) d E) as (_ & _ & ->). destruct fuel; reflexivity.
  - rewrite <- E in *. assert (N : v d <> []) by congruence. destruct (wk_some _ _ _ _ (tk_w _ _ _ _ T) d N) as [R Et].
    assert (X := hcount_ok _ _ _ _ R (length (v d)) 0 fuel ltac:(lia) F). replace (nth_error (L d) 0) with (hd_error (L d)) in X by (destruct (L d); reflexivity). rewrite <- Et in X.
    destruct (mode t d) eqn:EM; auto. destruct (tk_tree _ _ _ _ T d EM) as (i & o & -> & -> & P3 & P4). rewrite PropsTree.skel_nb, (PropsTree.shape_len _ _ _ P4), PropsTree.doms_len. reflexivity.
Qed.
Lemma tk_alive t v L G d : tok t v L G -> alive t (tptr t d) = Done tt.
Proof.
  intros T. destruct (mode_dec (mode t d) MTree) as [EM|NM]. - destruct (tk_tree _ _ _ _ T d EM) as (i & o & -> & E & _). cbn. rewrite E. reflexivity. - rewrite (tk_ntree _ _ _ _ T d NM). reflexivity.
Qed.

(** ** Creation of the syntheses *)
Lemma collect_ok h l gs x : rep h l gs x -> forall m k fuel, (m = length x - k)%nat -> (m <= fuel)%nat -> collect fuel h (nth_error l k) = Done (combine (skipn k l) (skipn k x)).
Proof.
  intros R. assert (Lx := rp_len _ _ _ _ R). induction m as [|m IH]; intros k fuel Em Lf.
  - replace (nth_error l k) with (@None nat) by (symmetry; apply nth_error_None; lia). rewrite !skipn_all2 by lia. destruct fuel; reflexivity.
  - destruct (nth_error l k) as [c|] eqn:Ec; [|apply nth_error_None in Ec; lia]. destruct (rep_slice _ _ _ _ _ _ R Ec) as (s & Es).
    destruct fuel as [|fuel]; [lia|]. cbn [collect]. rewrite (rd_spec _ _ _ _ _ _ _ R Ec Es). cbn [obind h_next h_gin h_gout h_lb h_ub h_cod].
    rewrite (rdg_in _ _ _ _ _ _ R Es), (rdg_out _ _ _ _ _ _ R Es). cbn [obind]. rewrite (IH (S k) fuel) by lia. cbn [obind].
    assert (SK : forall {A} (y : list A) j e, nth_error y j = Some e -> skipn j y = e :: skipn (S j) y).
    { clear. induction y as [|b y IH]; intros [|j] e E; cbn in *; try discriminate; auto. congruence. }
    rewrite (SK _ l k c Ec), (SK _ x k s Es). cbn [combine]. destruct s; reflexivity.
Qed.
Lemma combine_fst {A B} : forall (l : list A) (x : list B), length l = length x -> map fst (combine l x) = l.
Proof. induction l as [|a l IH]; intros [|b x] E; cbn in *; try discriminate; auto. f_equal. auto. Qed.
Lemma combine_snd {A B} : forall (l : list A) (x : list B), length l = length x -> map snd (combine l x) = x.
Proof. induction l as [|a l IH]; intros [|b x] E; cbn in *; try discriminate; auto. f_equal. auto. Qed.
Lemma set_refs_spec i : forall l f a, set_refs f i l a = if in_dec Nat.eq_dec a l then Some i else f a.
Proof.
  induction l as [|c l IH]; intros f a; cbn [set_refs]; [reflexivity|]. rewrite IH. unfold fput.
  destruct (in_dec Nat.eq_dec a l) as [I|N], (in_dec Nat.eq_dec a (c :: l)) as [J|M]; auto; destruct (Nat.eqb_spec a c) as [E|Nc]; auto; exfalso.
  - apply M. right; auto.
  - apply M. right; auto.
  - destruct J; auto.
  - apply M. left; auto.
Qed.

Lemma create_tree_ok t v L G d fuel : tok t v L G -> v d <> [] -> mode t d <> MPoly -> (length (v d) <= fuel)%nat ->
  exists t', create_tree fuel t d = Done t' /\ tok t' v L G /\ mode t' d = MTree /\ forall i, i <> d -> mode t' i = mode t i.
Proof.
  intros T0 N NP F. unfold create_tree. destruct (delete_tree_ok t v L G d T0) as (t1 & E1 & T & W1 & M1 & Q1 & Q2 & O1). rewrite E1. cbn [obind].
  assert (MN : mode t1 d = MNone). { destruct (mode_dec (mode t d) MTree); auto. rewrite (Q1 n). destruct (mode t d); congruence. }
  destruct (wk_some _ _ _ _ (tk_w _ _ _ _ T) d N) as [R Et].
  assert (X := collect_ok _ _ _ _ R (length (v d)) 0 fuel ltac:(lia) F). replace (nth_error (L d) 0) with (hd_error (L d)) in X by (destruct (L d); reflexivity). rewrite <- Et in X. cbn [skipn] in X.
  unfold heap_of. rewrite X. cbn [obind]. assert (Lx := tk_len _ _ _ _ d T).
  assert (NC : combine (L d) (v d) <> []) by (destruct (L d), (v d); cbn in *; congruence).
  assert (EC : forall B (u : B) (f : list (nat * slice) -> B), match combine (L d) (v d) with [] => u | _ => f (combine (L d) (v d)) end = f (combine (L d) (v d))) by (intros; destruct (combine (L d) (v d)); congruence).
  rewrite (EC _ _ (fun c => Done _)). rewrite combine_fst, combine_snd by auto. eexists. split; [reflexivity|]. set (i := nid t1). set (o := mkTree _ _).
  assert (Md := fset_eq (mode t1) d MTree). assert (Mn := fset_neq (mode t1) d MTree). assert (Td := fset_eq (tptr t1) d (Some i)). assert (Tn := fset_neq (tptr t1) d (Some i)).
  change (@fset) with (@fput) in *. cbn [mode]. split; [|split; [auto|intros j Nj; rewrite Mn; auto]].
  assert (Ti : forall j, fput (trees t1) i (Some o) j = if Nat.eqb j i then Some o else trees t1 j) by reflexivity.
  destruct T as [A B Em D E' Fp G0 H I J K M M' O P]. constructor; cbn [tw refs trees polys nid mode tptr pptr heap_of]; auto.
  - intros j Ej. destruct (Nat.eq_dec j d) as [->|Nj]; [congruence|rewrite Mn; auto].
  - intros j Ej. destruct (Nat.eq_dec j d) as [->|Nj].
    + exists i, o. rewrite Ti, Nat.eqb_refl. split; auto. split; auto. split; auto. apply PropsTree.tree_of_shape; auto.
    + rewrite Mn in Ej by auto. destruct (D j Ej) as (i' & o' & D1 & D2 & D3). exists i', o'. rewrite Tn by auto. split; auto. split; auto. rewrite Ti. destruct (Nat.eqb_spec i' i) as [->|]; auto.
      apply M in D1. unfold i in D1. lia.
  - intros j Ej. destruct (Nat.eq_dec j d) as [->|Nj]; [congruence|]. rewrite Mn in Ej by auto. rewrite Tn by auto. auto.
  - intros j Ej. destruct (Nat.eq_dec j d) as [->|Nj]; [congruence|]. rewrite Mn in Ej by auto. auto.
  - intros j Ej. destruct (Nat.eq_dec j d) as [->|Nj]; [apply G0; congruence|]. rewrite Mn in Ej by auto. auto.
  - intros j o'. rewrite Ti. destruct (Nat.eqb_spec j i) as [->|Nj]; [intros _; exists d; auto|]. intros Y. destruct (H _ _ Y) as (d' & Z). exists d'. rewrite Tn; auto. intros ->. rewrite E' in Z by auto. discriminate.
  - intros d1 d2 j X1 X2. destruct (Nat.eq_dec d1 d) as [->|N1], (Nat.eq_dec d2 d) as [->|N2]; auto; try rewrite Td in X1; try rewrite Td in X2; rewrite ?Tn in X1 by auto; rewrite ?Tn in X2 by auto.
    + injection X1 as <-. apply M in X2. unfold i in X2. lia.
    + injection X2 as <-. apply M in X1. unfold i in X1. lia.
    + eapply J; eauto.
  - intros d1 j X1. destruct (Nat.eq_dec d1 d) as [->|N1]; [rewrite Td in X1; injection X1 as <-; unfold i; lia|]. rewrite Tn in X1 by auto. apply M in X1. unfold i. lia.
  - intros d1 j X1. apply M' in X1. unfold i. lia.
  - intros d1 a Ia. rewrite set_refs_spec. destruct (Nat.eq_dec d1 d) as [->|N1].
    + rewrite Td. destruct (in_dec Nat.eq_dec a (L d)); [auto|tauto].
    + rewrite Tn by auto. destruct (in_dec Nat.eq_dec a (L d)) as [Id|]; auto. exfalso. apply N1. eapply wk_disj; eauto.
  - intros a La. rewrite set_refs_spec. destruct (in_dec _ _ _) as [Ia|]; auto. apply (wok_lt _ _ _ _ _ _ A) in Ia. unfold heap_of in La. cbn [tw] in La. lia.
Qed.
Lemma create_poly_ok t v L G d : tok t v L G -> v d <> [] -> mode t d <> MTree ->
  exists t', create_poly t d = Done t' /\ tok t' v L G /\ mode t' d = MPoly /\ forall i, i <> d -> mode t' i = mode t i.
Proof.
  intros T0 N NP. unfold create_poly. destruct (delete_poly_ok t v L G d T0) as (t1 & E1 & T & W1 & _ & MN & O1 & _ & _). specialize (MN NP). rewrite E1. cbn [obind].
  eexists. split; [reflexivity|]. set (i := nid t1).
  assert (Md := fset_eq (mode t1) d MPoly). assert (Mn := fset_neq (mode t1) d MPoly). assert (Td := fset_eq (pptr t1) d (Some i)). assert (Tn := fset_neq (pptr t1) d (Some i)).
  change (@fset) with (@fput) in *. cbn [mode]. split; [|split; [auto|intros j Nj; rewrite Mn; auto]].
  assert (Ti : forall j, fput (polys t1) i true j = if Nat.eqb j i then true else polys t1 j) by reflexivity.
  destruct T as [A B Em D E' Fp G0 H I J K M M' O P]. constructor; cbn [tw refs trees polys nid mode tptr pptr heap_of]; auto.
  - intros j Ej. destruct (Nat.eq_dec j d) as [->|Nj]; [congruence|rewrite Mn; auto].
  - intros j Ej. destruct (Nat.eq_dec j d) as [->|Nj]; [congruence|]. rewrite Mn in Ej by auto. auto.
  - intros j Ej. destruct (Nat.eq_dec j d) as [->|Nj]; [apply E'; congruence|]. rewrite Mn in Ej by auto. auto.
  - intros j Ej. destruct (Nat.eq_dec j d) as [->|Nj].
    + exists i. rewrite Ti, Nat.eqb_refl. auto.
    + rewrite Mn in Ej by auto. destruct (Fp j Ej) as (i' & D1 & D2). exists i'. rewrite Tn by auto. split; auto. rewrite Ti. destruct (Nat.eqb_spec i' i); auto.
  - intros j Ej. destruct (Nat.eq_dec j d) as [->|Nj]; [congruence|]. rewrite Mn in Ej by auto. rewrite Tn by auto. auto.
  - intros j. rewrite Ti. destruct (Nat.eqb_spec j i) as [->|Nj]; [intros _; exists d; auto|]. intros Y. destruct (I _ Y) as (d' & Z). exists d'. rewrite Tn; auto. intros ->. rewrite G0 in Z by congruence. discriminate.
  - intros d1 d2 j X1 X2. destruct (Nat.eq_dec d1 d) as [->|N1], (Nat.eq_dec d2 d) as [->|N2]; auto; try rewrite Td in X1; try rewrite Td in X2; rewrite ?Tn in X1 by auto; rewrite ?Tn in X2 by auto.
    + injection X1 as <-. apply M' in X2. unfold i in X2. lia.
    + injection X2 as <-. apply M' in X1. unfold i in X1. lia.
    + eapply K; eauto.
  - intros d1 j X1. apply M in X1. unfold i. lia.
  - intros d1 j X1. destruct (Nat.eq_dec d1 d) as [->|N1]; [rewrite Td in X1; injection X1 as <-; unfold i; lia|]. rewrite Tn in X1 by auto. apply M' in X1. unfold i. lia.
Qed.

(** ** One call *)
Lemma mode_set (m m' : nat -> smode) d x : m' d = x -> (forall i, i <> d -> m' i = m i) -> forall i, m' i = fset m d x i.
Proof. intros A B i. destruct (Nat.eq_dec i d) as [->|N]; [rewrite fset_eq|rewrite fset_neq]; auto. Qed.
Lemma tholds_step t v L G m d w' y l' : tok t v L G -> (forall i, mode t i = m i) -> steps (tw t) v L G d w' y l' -> y <> [] -> (exists a b, chain_from a y b) ->
  (mode t d <> MTree \/ l' = L d /\ PropsTree.doms y = PropsTree.doms (v d)) -> tholds (with_w t w') (fset v d y) m.
Proof. intros T M St N C HM. destruct (tok_step t v L G d w' y l' T St) as (G' & T'); auto; [congruence|]. exists (fset L d l'), G'. split; auto. Qed.

Lemma set_ok t v m d k fuel ints f F : tholds t v m -> (k < length (v d))%nat -> (length (v d) <= fuel)%nat ->
  (forall x, PropsTree.doms (F x) = PropsTree.doms x) ->
  (forall h l gs x a, rep h l gs x -> nth_error l k = Some a -> does h l gs (f h a) (F x)) ->
  exists t', set_and_notify fuel t d k ints f = Done t' /\ tholds t' (fset v d (F (v d))) m.
Proof.
  intros (L & G & T & M) Lk Lf HF Hf. assert (N : v d <> []) by (intros E; rewrite E in Lk; cbn in Lk; lia).
  destruct (wk_some _ _ _ _ (tk_w _ _ _ _ T) d N) as [R Et].
  destruct (nth_error (L d) k) as [a|] eqn:Ea. 2:{ apply nth_error_None in Ea. rewrite (tk_len _ _ _ _ d T) in Ea. lia. }
  destruct (slice_nth_ok _ _ _ _ _ _ _ T Ea) as [E1 _]. unfold set_and_notify. rewrite E1. cbn [obind].
  destruct (does_trans _ _ _ _ _ _ (wk_ok _ _ _ _ (tk_w _ _ _ _ T)) R N (Hf _ _ _ _ a R Ea)) as (h' & E & R' & Tr). unfold heap_of. rewrite E. cbn [obind].
  assert (NF : F (v d) <> []) by (apply (PropsTree.doms_nil (v d)); auto).
  assert (LF : length (F (v d)) = length (v d)) by (rewrite <- !PropsTree.doms_len, HF; auto).
  set (t1 := with_w t _).
  rewrite (notify_ok t1 (L d) (G d) (F (v d)) (tptr t d) R' (fun c I => tk_refs _ _ _ _ T d c I) (tk_alive _ _ _ _ d T) fuel ints k a Ea) by lia. cbn [obind].
  exists t1. split; auto. apply (tholds_step t v L G m d _ (F (v d)) (L d)); auto.
  - apply (heap_steps (tw t) v L G d h' _ (L d) (G d)); auto. apply T.
  - destruct (tk_chain _ _ _ _ T d N) as (u & w & C). exists u, w. apply (PropsTree.doms_chain (v d)); auto.
Qed.

Definition tbound (v : nat -> tube) (o : top) : nat :=
  match o with
  | TH (HAssign d s) => length (v d) + length (v s)
  | TH (HNew _ _ _ _) | TPoly _ | TNone _ => 0
  | TH (HKill d) | TH (HSample d _) | TH (HRemove d _) | TH (HSet d _ _) | TH (HEnvelope d _ _ _) | TH (HIn d _ _ _) | TH (HOut d _ _ _)
  | TTree d | TTruncate d _ _ | TMerge d _ => length (v d)
  end.

Lemma wok_tb w v L G d : wok w v L G -> v d <> [] -> tb w d = hd_error (L d). Proof. intros W N. apply (wk_some _ _ _ _ W d N). Qed.

Lemma texec_ok t v m fuel o : tholds t v m -> tvalid v m o -> (tbound v o <= fuel)%nat -> exists t', texec fuel t o = Done t' /\ tholds t' (tvexec v o) (tmexec v m o).
Proof.
  intros H V F. destruct o as [[d l u y|d s|d|d x|d x|d k y|d k y c|d k g c|d k g c]|d|d|d|d a b|d close]; cbn [texec tvexec tmexec tvalid tbound vexec hvalid] in *.
  - (* new *) destruct H as (L & G & T & M). destruct V as [V V2]. assert (Ed := tk_empty _ _ _ _ T d V).
    assert (St := new_steps (tw t) v L G d l u y (tk_w _ _ _ _ T) V). cbn [hexec obind]. set (w' := mkW _ _) in *. eexists. split; [reflexivity|].
    destruct (tok_step t v L G d w' [slice_new l u y] [hnxt (mem (tw t))] T St) as (G' & T'); auto; try congruence.
    { intros _. exists l, u. cbn. auto. } { left. congruence. }
    exists (fset L d [hnxt (mem (tw t))]), G'. split; [|intros i; unfold fput, fset; cbn [mode]; destruct (Nat.eqb i d); auto].
    apply (tok_ext _ _ _ _ _ _ _ _ T'); auto; cbn [with_w mode tptr pptr]; intros i; unfold fput; destruct (Nat.eqb_spec i d) as [->|]; auto.
    + symmetry. apply (tk_ntree _ _ _ _ T). congruence.
    + symmetry. apply (tk_npoly _ _ _ _ T). congruence.
  - (* assign *) destruct H as (L & G & T & M). destruct V as ((V1 & V2) & V3). rewrite <- M in V3.
    destruct (assign_steps (tw t) v L G fuel d s (tk_w _ _ _ _ T) V1 V2) as (w' & l' & E & St); try lia. unfold assign in E. unfold heap_of.
    destruct (destroy fuel (mem (tw t)) (tb (tw t) d)) as [h| |] eqn:Ed; cbn [obind] in E |- *; try discriminate.
    destruct (delete_synth_ok t v L G d T) as (t1 & _ & T1 & W1 & M1 & M2 & Q). rewrite (Q V3). cbn [obind with_w tw mem tb].
    destruct (copy_loop fuel h (tb (tw t) s) None None) as [r| |] eqn:Er; cbn [obind] in E |- *; try discriminate. injection E as <-.
    eexists. split; [reflexivity|]. rewrite with_w_w.
    apply (tholds_step t1 v L G _ d _ (v s) l'); auto.
    + apply mode_set; auto. intros. rewrite M2; auto.
    + rewrite W1. exact St.
    + apply (tk_chain _ _ _ _ T); auto.
    + left. congruence.
  - (* destructor *) destruct H as (L & G & T & M). destruct (delete_synth_ok t v L G d T) as (t1 & E1 & T1 & W1 & M1 & M2 & _). rewrite E1. cbn [obind].
    destruct (kill_steps (tw t1) v L G fuel d (tk_w _ _ _ _ T1) F) as (w' & E & St). rewrite E. cbn [obind]. eexists. split; [reflexivity|].
    destruct (tok_step t1 v L G d w' [] [] T1 St) as (G' & T'); auto; try congruence. { left. congruence. }
    exists (fset L d []), G'. split.
    + apply (tok_ext _ _ _ _ _ _ _ _ T'); auto; cbn [with_w mode tptr pptr]; intros i; unfold fput; destruct (Nat.eqb_spec i d) as [->|]; auto; symmetry.
      * apply (tk_ntree _ _ _ _ T1). congruence.
      * apply (tk_npoly _ _ _ _ T1). congruence.
    + intros i. cbn [mode]. unfold fput, fset. destruct (Nat.eqb_spec i d) as [->|]; auto. rewrite M2; auto.
  - (* sample *) destruct V as (s & Es & Bs). destruct H as (L & G & T & M). assert (N : v d <> []) by (eapply nonempty_at; eauto).
    destruct (slice_at_ok t v L G d x fuel T N F) as (a & Ea & E1 & E2). rewrite E1. cbn [obind].
    destruct (wk_some _ _ _ _ (tk_w _ _ _ _ T) d N) as [R Et]. unfold heap_of at 1. rewrite (rd_spec _ _ _ _ _ _ _ R Ea Es). cbn [obind h_lb h_ub].
    replace (Rleb (s_lb s) x && Rleb x (s_ub s)) with true by (symmetry; apply andb_true_iff; split; apply Rleb_true; lra).
    destruct (sample_spec _ _ _ _ x fuel s (wk_ok _ _ _ _ (tk_w _ _ _ _ T)) R N F Es Bs) as (h' & l' & gs' & E3 & R' & Hd & Tr).
    unfold hsample in E3. rewrite <- Et in E3. unfold heap_of in E2. rewrite E2 in E3. cbn [obind] in E3.
    assert (Cx : exists u w, chain_from u (sample x (v d)) w). { destruct (tk_chain _ _ _ _ T d N) as (u & w & C). exists u, w. apply sample_chain; auto. destruct (chain_in_bounds _ _ _ _ C (nth_error_In _ _ Es)). lra. }
    unfold interior. rewrite Es. destruct (Reqb (s_lb s) x || Reqb (s_ub s) x) eqn:Q; cbn [negb].
    + exists t. split; auto. exists L, G. split; auto. apply (tok_ext _ _ _ _ _ _ _ _ T); auto. intros i. unfold fset. destruct (Nat.eqb_spec i d) as [->|]; auto.
      destruct (rep_seg _ _ _ _ R) as (g0 & gq & _ & S0). destruct (find_seg _ x gq (v d) (L d) None g0 fuel None S0 N F) as (x1 & s' & x2 & l1 & a' & l2 & P1 & P2 & P3 & P4 & P5 & P6).
      rewrite P6. rewrite <- P4, P1, nth_error_app2, Nat.sub_diag in Es by lia. cbn in Es. injection Es as ->. unfold sample_slice. rewrite Q. symmetry. exact P1.
    + destruct (delete_synth_ok t v L G d T) as (t1 & D1 & T1 & W1 & M1 & M2 & _). rewrite D1. cbn [obind]. unfold heap_of. rewrite W1, E3. cbn [obind]. eexists. split; [reflexivity|].
      apply (tholds_step t1 v L G _ d _ (sample x (v d)) l'); auto.
      * apply mode_set; auto. intros. rewrite M2; auto.
      * rewrite W1. apply (heap_steps (tw t) v L G d h' _ l' gs'); auto. apply T. apply sample_ne; auto.
      * apply sample_ne; auto.
      * left. congruence.
  - (* remove_gate *) destruct V as ((k & s1 & s2 & I & Es1 & Es2 & U1 & U2) & NM). destruct H as (L & G & T & M). rewrite <- M in NM. assert (N : v d <> []) by (eapply nonempty_at; eauto).
    destruct (slice_at_ok t v L G d x fuel T N F) as (b & Eb & E1 & _). rewrite E1. cbn [obind]. rewrite I in Eb.
    destruct (wk_some _ _ _ _ (tk_w _ _ _ _ T) d N) as [R Et]. unfold heap_of. rewrite (rd_spec _ _ _ _ _ _ _ R Eb Es2). cbn [obind h_lb h_prev prevp].
    replace (Reqb (s_lb s2) x) with true by (symmetry; apply Reqb_true; auto).
    destruct (rep_addr _ _ _ _ _ _ R Es1) as (a & _ & _ & Ea & _). rewrite Ea.
    rewrite (notify_ok t (L d) (G d) (v d) (tptr t d) R (fun c I => tk_refs _ _ _ _ T d c I) (tk_alive _ _ _ _ d T) fuel true k a Ea) by lia. cbn [obind].
    destruct (merge_spec _ _ _ _ _ _ _ _ _ (wk_ok _ _ _ _ (tk_w _ _ _ _ T)) R Ea Eb Es1 Es2) as (h' & l' & gs' & E3 & R' & Hd & Tr); [congruence|]. rewrite E3. cbn [obind]. eexists. split; [reflexivity|].
    unfold remove_gate. rewrite I. apply (tholds_step t v L G _ d _ (merge_at k (v d)) l'); auto.
    + apply (heap_steps (tw t) v L G d h' _ l' gs'); auto. apply T. apply merge_ne; auto.
    + apply merge_ne; auto.
    + destruct (tk_chain _ _ _ _ T d N) as (u & w & C). exists u, w. apply merge_chain; auto.
  - apply (set_ok t v m d k fuel true (fun h a => hslice_set h a y) (slice_set k y)); auto. { intros. apply (PropsTree.write_doms (Tree.WSet k y)). } intros. apply slice_set_does; auto.
  - apply (set_ok t v m d k fuel true (fun h a => hset_envelope h a y c) (set_envelope k y c)); auto. { intros. apply (PropsTree.write_doms (Tree.WEnvelope k y c)). } intros. apply set_envelope_does; auto.
  - apply (set_ok t v m d k fuel false (fun h a => hset_input_gate h a g c) (set_input_gate k g c)); auto. { intros. apply (PropsTree.write_doms (Tree.WIn k g c)). } intros. apply set_input_gate_does; auto.
  - apply (set_ok t v m d k fuel false (fun h a => hset_output_gate h a g c) (set_output_gate k g c)); auto. { intros. apply (PropsTree.write_doms (Tree.WOut k g c)). } intros. apply set_output_gate_does; auto.
  - destruct H as (L & G & T & M). destruct V as [V1 V2]. destruct (create_tree_ok t v L G d fuel T) as (t' & E & T' & M1 & M2); auto; [rewrite M; auto|]. exists t'. split; auto. exists L, G. split; auto.
    apply mode_set; auto. intros. rewrite M2; auto.
  - destruct H as (L & G & T & M). destruct V as [V1 V2]. destruct (create_poly_ok t v L G d T) as (t' & E & T' & M1 & M2); auto; [rewrite M; auto|]. exists t'. split; auto. exists L, G. split; auto.
    apply mode_set; auto. intros. rewrite M2; auto.
  - destruct H as (L & G & T & M). destruct (delete_synth_ok t v L G d T) as (t' & E & T' & W & M1 & M2 & _). exists t'. split; auto. exists L, G. split; auto. apply mode_set; auto. intros. rewrite M2; auto.
  - (* truncate_tdomain *) destruct V as (NM & AB & u & w & C & U & B). destruct H as (L & G & T & M). rewrite <- M in NM. assert (N : v d <> []) by (intros E; rewrite E in C; cbn in C; lra).
    destruct (wk_some _ _ _ _ (tk_w _ _ _ _ T) d N) as [R Et].
    destruct (truncate_heap a b (v d) fuel _ _ _ u w (wk_ok _ _ _ _ (tk_w _ _ _ _ T)) R C U AB B F) as (c & h1 & h2 & e & c2 & h3 & h4 & l' & gs' & E1 & E2 & E3 & E3' & E4 & E5 & R' & Hd & Tr).
    destruct (truncate_chain a b (v d) u w C U AB B) as [CT NT].
    unfold truncate, heap_of. rewrite Et, E1. cbn [obind fst snd with_w tw mem tb mode]. rewrite E2. cbn [obind with_w tw mem tb mode].
    replace (fput (tb (tw t)) d (Some c) d) with (Some c) by (unfold fput; rewrite Nat.eqb_refl; auto).
    assert (EM : forall A (p q : A), match mode t d with MTree => p | _ => q end = q) by (intros; destruct (mode t d); congruence). rewrite EM, E3. cbn [obind]. rewrite E4. cbn [obind fst snd]. rewrite E5. cbn [obind].
    destruct (delete_synth_ok t v L G d T) as (t1 & _ & T1 & W1 & M1 & M2 & Q). rewrite with_w_w, with_w_w, (Q NM). eexists. split; [reflexivity|].
    apply (tholds_step t1 v L G _ d _ (truncate_tdomain a b (v d)) l'); eauto.
    + apply mode_set; auto. intros. rewrite M2; auto.
    + exists gs'. rewrite W1. split; [|split; [apply (tr_new _ _ _ _ _ _ Tr)|apply (tr_nxt _ _ _ _ _ _ Tr)]]. apply (step_ok (tw t)); auto. apply T. intros i. unfold fput. rewrite Hd. reflexivity.
    + left. congruence.
  - (* merge_similar_slices *) destruct V as (N & NM). destruct H as (L & G & T & M). rewrite <- M in NM.
    destruct (wk_some _ _ _ _ (tk_w _ _ _ _ T) d N) as [R Et]. destruct (tk_chain _ _ _ _ T d N) as (u & w & C).
    destruct (merge_similar_first close fuel t (L d) (G d) (v d) u w (tptr t d) (wk_ok _ _ _ _ (tk_w _ _ _ _ T)) R N C (fun c I => tk_refs _ _ _ _ T d c I) (tk_alive _ _ _ _ d T) F) as (h' & l' & gs' & E & R' & Hd & _ & Tr).
    rewrite Et, E. eexists. split; [reflexivity|]. assert (NE : merge_similar_slices close (v d) <> []) by (apply merge_loop_ne; auto).
    apply (tholds_step t v L G _ d _ (merge_similar_slices close (v d)) l'); auto.
    + apply (heap_steps (tw t) v L G d h' _ l' gs'); auto. apply T.
    + exists u, w. apply merge_loop_chain; auto.
Qed.

(** ** C111: theorems *)
Fixpoint tbounds (v : nat -> tube) (m : nat -> smode) (ops : list top) : nat :=
  match ops with [] => 0%nat | o :: r => Nat.max (tbound v o) (tbounds (tvexec v o) (tmexec v m o) r) end.
(** Any sequence of allowed calls, with syntheses enabled and disabled in between, runs without invalid access or double
    delete; the memory then holds exactly the tubes computed on lists, and each tube with a tree has a tree on its current
    slices. *)
Theorem C111_programs : forall ops t v m, tholds t v m -> tall_valid v m ops ->
  exists N, forall fuel, (N <= fuel)%nat -> exists t', trun fuel t ops = Done t' /\ tholds t' (tvrun v ops) (tmrun v m ops).
Proof.
  intros ops t v m H V. exists (tbounds v m ops). revert t v m H V. induction ops as [|o ops IH]; intros t v m H V fuel F; cbn [trun tvrun fold_left tmrun]; [exists t; auto|].
  destruct V as [V1 V2]. cbn [tbounds] in F. destruct (texec_ok t v m fuel o H V1) as (t1 & E1 & H1); [lia|]. rewrite E1. cbn [obind]. apply (IH t1 (tvexec v o) (tmexec v m o)); auto. lia.
Qed.

(** With a tree, the slices found are those found by the loops over the slices, and so is their number. *)
Theorem C111_queries : forall t v m d fuel, tholds t v m -> v d <> [] -> (length (v d) <= fuel)%nat ->
  (forall x, exists a, slice_at fuel t d x = Done a /\ find fuel (heap_of t) x (tb (tw t) d) None = Done a) /\
  (forall k, (k < length (v d))%nat -> exists a, slice_nth t d k = Done a /\ nth_slice (heap_of t) (tb (tw t) d) k = Done a) /\
  nb_slices fuel t d = Done (length (v d)) /\ hcount fuel (heap_of t) (tb (tw t) d) = Done (length (v d)).
Proof.
  intros t v m d fuel (L & G & T & M) N F. split; [|split; [|split]].
  - intros x. destruct (slice_at_ok t v L G d x fuel T N F) as (a & _ & E1 & E2). eauto.
  - intros k Lk. destruct (nth_error (L d) k) as [a|] eqn:Ea. 2:{ apply nth_error_None in Ea. rewrite (tk_len _ _ _ _ d T) in Ea. lia. } exists a. apply (slice_nth_ok t v L G); auto.
  - apply (nb_slices_ok t v L G); auto.
  - destruct (wk_some _ _ _ _ (tk_w _ _ _ _ T) d N) as [R Et]. rewrite Et. replace (hd_error (L d)) with (nth_error (L d) 0) by (destruct (L d); reflexivity). apply (hcount_ok _ _ _ _ R); auto. lia.
Qed.

(** When all the tubes are destroyed the memory is empty: no slice, gate, tree or polynomial is left. *)
Theorem C111_no_leak : forall t v m, tholds t v m -> (forall i, v i = []) -> forall a, hsl (heap_of t) a = None /\ hgt (heap_of t) a = None /\ trees t a = None /\ polys t a = false.
Proof.
  intros t v m (L & G & T & M) E a. destruct (C110_no_leak (tw t) v) with (a := a) as [A B]; auto. { exists L, G. apply T. } split; auto. split; auto. split.
  - destruct (trees t a) as [o|] eqn:Eo; auto. destruct (tk_own _ _ _ _ T _ _ Eo) as (d & Ed). rewrite (tk_ntree _ _ _ _ T d) in Ed; [discriminate|]. rewrite (tk_empty _ _ _ _ T d (E d)). discriminate.
  - destruct (polys t a) eqn:Eo; auto. destruct (tk_ownp _ _ _ _ T _ Eo) as (d & Ed). rewrite (tk_npoly _ _ _ _ T d) in Ed; [discriminate|]. rewrite (tk_empty _ _ _ _ T d (E d)). discriminate.
Qed.

(** a leaf whose slice is freed: the tree cannot be deleted *)
Lemma delete_synth_undef t d i o a : mode t d = MTree -> tptr t d = Some i -> trees t i = Some o -> List.In a (t_leaves o) -> hsl (heap_of t) a = None -> delete_synth t d = Undef.
Proof. intros E1 E2 E3 I E4. unfold delete_synth, delete_tree. rewrite E1, E2, E3. rewrite (clear_refs_undef _ _ E4); auto. Qed.
Lemma lost (l l' : list nat) : NoDup l -> (length l' < length l)%nat -> exists a, List.In a l /\ ~ List.In a l'.
Proof.
  intros N Ll. destruct (Exists_dec (fun a => ~ List.In a l') l) as [E|E].
  - intros a. destruct (in_dec Nat.eq_dec a l'); [right|left]; tauto.
  - apply Exists_exists in E. auto.
  - exfalso. assert (incl l l'). { intros a I. destruct (in_dec Nat.eq_dec a l') as [J|J]; auto. exfalso. apply E. apply Exists_exists. eauto. } apply (NoDup_incl_length N) in H. lia.
Qed.

(** Tube::operator= deletes the slices before the tree: an assignment to a tube with a tree writes in deleted slices. *)
Theorem C111_assign : forall t v m d s fuel, tholds t v m -> m d = MTree -> (length (v d) <= fuel)%nat -> texec fuel t (TH (HAssign d s)) = Undef.
Proof.
  intros t v m d s fuel (L & G & T & M) Ed F. rewrite <- M in Ed. cbn [texec]. destruct (destroy_obj (tw t) v L G d fuel (tk_w _ _ _ _ T) F) as (h & E & (Gn & _) & _). unfold heap_of. rewrite E. cbn [obind].
  assert (N : v d <> []) by (intros X; rewrite (tk_empty _ _ _ _ T d X) in Ed; discriminate). assert (Lx := tk_len _ _ _ _ d T).
  destruct (tk_tree _ _ _ _ T d Ed) as (i & o & P1 & P2 & P3 & _). destruct (L d) as [|a l] eqn:El. { destruct (v d); [congruence|discriminate]. }
  rewrite (delete_synth_undef (with_w t _) d i o a); auto. { rewrite P3. left; auto. } apply Gn. left; auto.
Qed.
(** Tube::remove_gate does not update the tree: afterwards the tube cannot be destroyed, nor its synthesis changed. *)
Theorem C111_remove : forall t v m d x fuel, tholds t v m -> hvalid v (HRemove d x) -> m d = MTree -> (length (v d) <= fuel)%nat ->
  exists t', texec fuel t (TH (HRemove d x)) = Done t' /\ texec fuel t' (TH (HKill d)) = Undef /\ texec fuel t' (TNone d) = Undef /\ texec fuel t' (TTree d) = Undef.
Proof.
  intros t v m d x fuel (L & G & T & M) (k & s1 & s2 & I & Es1 & Es2 & U1 & U2) Ed F. rewrite <- M in Ed. cbn [texec]. assert (N : v d <> []) by (eapply nonempty_at; eauto).
  destruct (slice_at_ok t v L G d x fuel T N F) as (b & Eb & E1 & _). rewrite E1. cbn [obind]. rewrite I in Eb.
  destruct (wk_some _ _ _ _ (tk_w _ _ _ _ T) d N) as [R Et]. unfold heap_of. rewrite (rd_spec _ _ _ _ _ _ _ R Eb Es2). cbn [obind h_lb h_prev prevp].
  replace (Reqb (s_lb s2) x) with true by (symmetry; apply Reqb_true; auto).
  destruct (rep_addr _ _ _ _ _ _ R Es1) as (a & _ & _ & Ea & _). rewrite Ea.
  rewrite (notify_ok t (L d) (G d) (v d) (tptr t d) R (fun c I => tk_refs _ _ _ _ T d c I) (tk_alive _ _ _ _ d T) fuel true k a Ea) by lia. cbn [obind].
  destruct (merge_spec_at _ _ _ _ _ _ _ _ _ (wk_ok _ _ _ _ (tk_w _ _ _ _ T)) R Ea Eb Es1 Es2) as (h' & l1 & l3 & gs' & E3 & El & Ll & R' & Tr); [congruence|]. rewrite E3. cbn [obind]. eexists. split; [reflexivity|].
  destruct (tk_tree _ _ _ _ T d Ed) as (i & o & P1 & P2 & P3 & _).
  assert (Fr : hsl h' b = None). { apply (tr_free _ _ _ _ _ _ Tr). - rewrite El. apply in_or_app. right. right. left. auto.
    - assert (ND := rp_nd _ _ _ _ R). rewrite El in ND. change (l1 ++ a :: b :: l3) with (l1 ++ [a] ++ b :: l3) in ND. rewrite app_assoc in ND. apply NoDup_remove_2 in ND. rewrite <- app_assoc in ND. exact ND. }
  assert (Ib : List.In b (t_leaves o)) by (rewrite P3, El; apply in_or_app; right; right; left; auto).
  assert (D := delete_synth_undef (with_w t (mkW h' (tb (tw t)))) d i o b Ed P1 P2 Ib Fr). rewrite D. split; auto. split; auto.
  unfold create_tree, delete_tree. cbn [with_w mode tptr trees]. rewrite Ed, P1, P2, (clear_refs_undef _ b); auto.
Qed.
(** Tube::merge_similar_slices: the same, if a slice has been merged. *)
Theorem C111_merge : forall t v m d close fuel, tholds t v m -> m d = MTree -> (length (v d) <= fuel)%nat -> (length (merge_similar_slices close (v d)) < length (v d))%nat ->
  exists t', texec fuel t (TMerge d close) = Done t' /\ texec fuel t' (TH (HKill d)) = Undef.
Proof.
  intros t v m d close fuel (L & G & T & M) Ed F Ll. rewrite <- M in Ed. cbn [texec]. assert (N : v d <> []) by (intros X; rewrite (tk_empty _ _ _ _ T d X) in Ed; discriminate).
  destruct (wk_some _ _ _ _ (tk_w _ _ _ _ T) d N) as [R Et]. destruct (tk_chain _ _ _ _ T d N) as (u & w & C).
  destruct (merge_similar_first close fuel t (L d) (G d) (v d) u w (tptr t d) (wk_ok _ _ _ _ (tk_w _ _ _ _ T)) R N C (fun c I => tk_refs _ _ _ _ T d c I) (tk_alive _ _ _ _ d T) F) as (h' & l' & gs' & E & R' & Hd & _ & Tr).
  rewrite Et, E. eexists. split; [reflexivity|]. destruct (tk_tree _ _ _ _ T d Ed) as (i & o & P1 & P2 & P3 & _).
  destruct (lost (L d) l') as (a & I1 & I2). { apply R. } { rewrite (rp_len _ _ _ _ R), (rp_len _ _ _ _ R'). auto. }
  rewrite (delete_synth_undef (with_w t _) d i o a); auto. { rewrite P3. auto. } apply (tr_free _ _ _ _ _ _ Tr); auto.
Qed.
(** Tube::truncate_tdomain deletes slices before the tree: with a tree, it writes in deleted slices unless all the slices are kept. *)
Theorem C111_truncate : forall t v m d a b u w fuel, tholds t v m -> m d = MTree -> (length (v d) <= fuel)%nat -> chain_from u (v d) w -> u <= a -> a < b -> b <= w ->
  (length (truncate_tdomain a b (v d)) < length (v d))%nat -> texec fuel t (TTruncate d a b) = Undef.
Proof.
  intros t v m d a b u w fuel (L & G & T & M) Ed F C U AB B Ll. rewrite <- M in Ed. cbn [texec]. assert (N : v d <> []) by (intros X; rewrite (tk_empty _ _ _ _ T d X) in Ed; discriminate).
  destruct (wk_some _ _ _ _ (tk_w _ _ _ _ T) d N) as [R Et].
  destruct (truncate_heap a b (v d) fuel _ _ _ u w (wk_ok _ _ _ _ (tk_w _ _ _ _ T)) R C U AB B F) as (c & h1 & h2 & e & c2 & h3 & h4 & l' & gs' & E1 & E2 & E3 & E3' & E4 & E5 & R' & Hd & Tr).
  destruct (tk_tree _ _ _ _ T d Ed) as (i & o & P1 & P2 & P3 & P4).
  unfold truncate, heap_of. rewrite Et, E1. cbn [obind fst snd with_w tw mem tb mode]. rewrite E2. cbn [obind with_w tw mem tb mode].
  rewrite Ed. unfold nb_slices. cbn [with_w mode tptr trees]. rewrite Ed, P1, P2. cbn [obind]. unfold slice_nth. cbn [with_w mode tptr trees]. rewrite Ed, P1, P2.
  rewrite PropsTree.skel_nb, (PropsTree.shape_len _ _ _ P4), PropsTree.doms_len. assert (L0 : (0 < length (v d))%nat) by (destruct (v d); [congruence|cbn; lia]).
  rewrite (PropsTree.tslice_ok _ _ _ (length (v d) - 1) P4) by (rewrite PropsTree.doms_len; lia). cbn [Nat.add]. rewrite P3. rewrite (tk_len _ _ _ _ d T) in E3'. rewrite E3'. cbn [obind]. rewrite E4. cbn [obind fst snd]. rewrite E5. cbn [obind].
  destruct (lost (L d) l') as (q & I1 & I2). { apply R. } { rewrite (rp_len _ _ _ _ R), (rp_len _ _ _ _ R'). auto. }
  apply (delete_synth_undef _ d i o q); auto. { rewrite P3. auto. } apply (tr_free _ _ _ _ _ _ Tr); auto.
Qed.
(** The polynomial synthesis enabled on a tube with a tree: the tree is never deleted. *)
Theorem C111_lost_tree : forall t v m d fuel, tholds t v m -> m d = MTree -> (length (v d) <= fuel)%nat ->
  exists t1 t2 i o, texec fuel t (TPoly d) = Done t1 /\ texec fuel t1 (TH (HKill d)) = Done t2 /\ tptr t d = Some i /\ trees t2 i = Some o /\ forall d', tptr t2 d' <> Some i.
Proof.
  intros t v m d fuel (L & G & T & M) Ed F. rewrite <- M in Ed. destruct (tk_tree _ _ _ _ T d Ed) as (i & o & P1 & P2 & P3 & _). cbn [texec]. unfold create_poly, delete_poly. rewrite Ed. cbn [obind].
  destruct (kill_steps (tw t) v L G fuel d (tk_w _ _ _ _ T) F) as (w' & E & _). eexists. do 3 eexists. split; [reflexivity|]. set (t1 := mkTW _ _ _ _ _ _ _ _).
  assert (Md : mode t1 d = MPoly) by (cbn; unfold fput; rewrite Nat.eqb_refl; auto). assert (Pd : pptr t1 d = Some (nid t)) by (cbn; unfold fput; rewrite Nat.eqb_refl; auto).
  assert (Pp : polys t1 (nid t) = true) by (cbn; unfold fput; rewrite Nat.eqb_refl; auto).
  unfold delete_synth, delete_tree. rewrite Md. cbn [obind]. unfold delete_poly. rewrite Md, Pd, Pp. cbn [obind tw].
  change (tw t1) with (tw t). rewrite E. cbn [obind]. split; [reflexivity|]. split; [exact P1|]. split; [exact P2|].
  intros d'. cbn [tptr]. unfold fput. destruct (Nat.eqb_spec d' d) as [->|Nd]; [discriminate|]. intros X. apply Nd. eapply (tk_inj _ _ _ _ T); eauto.
Qed.
(** The tree enabled on a tube with a polynomial synthesis: the polynomial is never deleted. *)
Theorem C111_lost_polynomial : forall t v m d fuel, tholds t v m -> m d = MPoly -> v d <> [] -> (length (v d) <= fuel)%nat ->
  exists t1 t2 i, texec fuel t (TTree d) = Done t1 /\ texec fuel t1 (TH (HKill d)) = Done t2 /\ pptr t d = Some i /\ polys t2 i = true /\ forall d', pptr t2 d' <> Some i.
Proof.
  intros t v m d fuel (L & G & T & M) Ed N F. rewrite <- M in Ed. destruct (tk_poly _ _ _ _ T d Ed) as (i & P1 & P2). cbn [texec]. unfold create_tree at 1, delete_tree at 1. rewrite Ed. cbn [obind].
  destruct (wk_some _ _ _ _ (tk_w _ _ _ _ T) d N) as [R Et].
  assert (X := collect_ok _ _ _ _ R (length (v d)) 0 fuel ltac:(lia) F). replace (nth_error (L d) 0) with (hd_error (L d)) in X by (destruct (L d); reflexivity). rewrite <- Et in X. cbn [skipn] in X.
  unfold heap_of at 1. rewrite X. cbn [obind]. assert (Lx := tk_len _ _ _ _ d T).
  assert (NC : combine (L d) (v d) <> []) by (destruct (L d), (v d); cbn in *; congruence).
  assert (EC : forall B (u : B) (f : list (nat * slice) -> B), match combine (L d) (v d) with [] => u | _ => f (combine (L d) (v d)) end = f (combine (L d) (v d))) by (intros; destruct (combine (L d) (v d)); congruence).
  rewrite (EC _ _ (fun c => Done _)). rewrite combine_fst, combine_snd by auto.
  destruct (kill_steps (tw t) v L G fuel d (tk_w _ _ _ _ T) F) as (w' & E & _).
  destruct (clear_refs_ok (heap_of t) (L d) (set_refs (refs t) (nid t) (L d))) as (f' & F1 & _). { intros a I. apply (wok_alive (tw t) v L G d); auto. apply T. }
  do 3 eexists. split; [reflexivity|]. set (t1 := mkTW _ _ _ _ _ _ _ _).
  assert (Md : mode t1 d = MTree) by (cbn; unfold fput; rewrite Nat.eqb_refl; auto). assert (Td : tptr t1 d = Some (nid t)) by (cbn; unfold fput; rewrite Nat.eqb_refl; auto).
  assert (Tp : trees t1 (nid t) = Some (mkTree (Tree.tree_of (v d)) (L d))) by (cbn; unfold fput; rewrite Nat.eqb_refl; auto).
  unfold delete_synth, delete_tree. rewrite Md, Td, Tp. cbn [t_leaves].
  change (clear_refs (heap_of t1) (refs t1) (L d)) with (clear_refs (heap_of t) (set_refs (refs t) (nid t) (L d)) (L d)). rewrite F1. cbn [obind].
  unfold delete_poly. cbn [mode]. replace (fput (mode t1) d MNone d) with MNone by (unfold fput; rewrite Nat.eqb_refl; auto). cbn [obind tw].
  change (tw t1) with (tw t). rewrite E. cbn [obind]. split; [reflexivity|]. split; [exact P1|]. split; [exact P2|].
  intros d'. cbn [pptr]. unfold fput. destruct (Nat.eqb_spec d' d) as [->|Nd]; [discriminate|]. intros Y. apply Nd. eapply (tk_injp _ _ _ _ T); eauto.
Qed.

(** ** Examples *)
Lemma tholds_ext t v m v' m' : tholds t v m -> (forall i, v' i = v i) -> (forall i, m' i = m i) -> tholds t v' m'.
Proof. intros (L & G & T & M) Ev Em. exists L, G. split; [apply (tok_ext _ _ _ _ _ _ _ _ T); auto|intros i; rewrite Em; auto]. Qed.
Definition t_empty : tworld := mkTW w_empty (fun _ => None) (fun _ => None) (fun _ => false) 0 (fun _ => MNone) (fun _ => None) (fun _ => None).
Definition mm (p q : smode) (i : nat) : smode := match i with 0%nat => p | 1%nat => q | _ => MNone end.
Lemma t_empty_ok : tholds t_empty (vv [] []) (mm MNone MNone).
Proof.
  destruct w_empty_vv as (L & G & W). exists L, G. split; [|intros [|[|i]]; reflexivity].
  constructor; cbn [tw t_empty trees polys nid mode tptr pptr refs heap_of]; auto; try discriminate; try congruence.
  - intros d N. exfalso. apply N. apply vv_nil.
Qed.
Lemma tvexec_ext o v v' : (forall i, v i = v' i) -> forall i, tvexec v o i = tvexec v' o i.
Proof. intros E i. destruct o as [o|d|d|d|d a b|d c]; cbn [tvexec]; auto. - apply vexec_ext; auto. - unfold fset. rewrite !E. reflexivity. - unfold fset. rewrite !E. reflexivity. Qed.
Lemma tmexec_ext o v v' m m' : (forall i, v i = v' i) -> (forall i, m i = m' i) -> forall i, tmexec v m o i = tmexec v' m' o i.
Proof.
  intros E M i. destruct o as [[]|d|d|d|d a b|d c]; cbn [tmexec]; auto; try (unfold fset; destruct (Nat.eqb _ _); auto; fail).
  rewrite E. destruct (interior _ _); auto. unfold fset; destruct (Nat.eqb _ _); auto.
Qed.
Lemma tvalid_ext o v v' m m' : (forall i, v i = v' i) -> (forall i, m i = m' i) -> tvalid v m o -> tvalid v' m' o.
Proof.
  intros E M V. destruct o as [[]|d|d|d|d a b|d c]; cbn [tvalid] in *; rewrite <- ?M, <- ?E; auto; try (eapply hvalid_ext; eauto; fail); destruct V as [V1 V2]; split; auto; eapply hvalid_ext; eauto.
Qed.
Lemma tall_valid_ext ops : forall v v' m m', (forall i, v i = v' i) -> (forall i, m i = m' i) -> tall_valid v m ops -> tall_valid v' m' ops.
Proof.
  induction ops as [|o ops IH]; intros v v' m m' E M V; cbn in *; auto. destruct V as [V1 V2]. split; [eapply tvalid_ext; eauto|]. eapply IH; [| |exact V2]; intros i; [apply tvexec_ext|apply tmexec_ext]; auto.
Qed.
Lemma tvv_step a b p q a' b' p' q' o r : tvalid (vv a b) (mm p q) o -> (forall i, tvexec (vv a b) o i = vv a' b' i) -> (forall i, tmexec (vv a b) (mm p q) o i = mm p' q' i) ->
  tall_valid (vv a' b') (mm p' q') r -> tall_valid (vv a b) (mm p q) (o :: r).
Proof. intros V E M R. split; auto. eapply tall_valid_ext; [| |exact R]; intros i; auto. Qed.

Definition qX2 : tube := [mkS 0 1 (I2 0 1) (I2 0 1) (I2 0 (1/2)); mkS 1 4 (I2 0 (1/2)) (I2 0 (1/2)) (I2 0 (1/2))].
Definition qX3 : tube := [mkS (1/2) 1 (I2 0 1) (I2 0 1) (I2 0 (1/2)); mkS 1 3 (I2 0 (1/2)) (I2 0 (1/2)) (I2 0 (1/2))].
Definition qX4 : tube := [mkS (1/2) 3 (I2 0 1) (I2 0 1) (I2 0 (1/2))].
Lemma qE2 : set_envelope 1 (I2 0 (1/2)) true pX1 = qX2. Proof. unfold qX2, pX1, set_envelope, put_gate. cbn. reval. reflexivity. Qed.
Lemma qE3 : truncate_tdomain (1/2) 3 qX2 = qX3.
Proof.
  unfold truncate_tdomain, qX2, qX3. assert (O1 : is_outside_of (1/2) 3 (1/2) (mkS 0 1 (I2 0 1) (I2 0 1) (I2 0 (1/2))) = false) by (apply outside_false; cbn; lra). cbn [drop_first]. rewrite O1. cbn [upd rev app drop_last].
  assert (O2 : is_outside_of (1/2) 3 3 (mkS 1 4 (I2 0 (1/2)) (I2 0 (1/2)) (I2 0 (1/2))) = false) by (apply outside_false; cbn; lra). rewrite O2. cbn [rev app length Nat.sub upd].
  unfold clip_dom. rewrite !inter_dom; cbn; reval; try lra. reflexivity.
Qed.
Lemma qE4 : merge_similar_slices (fun _ _ => true) qX3 = qX4. Proof. unfold merge_similar_slices, qX3, qX4. cbn. unfold merge_at, set_envelope, put_gate. cbn. reval. reflexivity. Qed.
Definition tprog : list top :=
  [TH (HNew 0 0 4 (I2 0 1)); TH (HSample 0 1); TTree 0; TH (HEnvelope 0 1 (I2 0 (1/2)) true); TH (HAssign 1 0); TTree 1; TNone 0; TTruncate 0 (1/2) 3; TPoly 0;
   TMerge 0 (fun _ _ => true); TH (HKill 0); TH (HKill 1)].
Ltac by_i := intros [|[|i]]; cbn [tvexec vexec fset vv mm tmexec Nat.eqb]; auto.
Lemma hv_sample1 : hvalid (vv pX0 []) (HSample 0 1).
Proof. cbn. unfold pX0, slice_new. cbn. eexists. split; [destruct (Rltb 1 4); reflexivity|cbn; lra]. Qed.
Lemma in_sample1 : interior pX0 1 = true.
Proof. unfold interior, pX0, slice_new. cbn. destruct (Rltb 1 4); cbn [nth_error s_lb s_ub]; reval; reflexivity. Qed.
Lemma qX2_chain : chain_from 0 qX2 4. Proof. unfold qX2. cbn. lra. Qed.
(** a program with two tubes: trees, an assignment from a tube with a tree, a truncation, a merge, a polynomial synthesis *)
Example C111_prog_valid : tall_valid (vv [] []) (mm MNone MNone) tprog.
Proof.
  unfold tprog.
  apply (tvv_step [] [] MNone MNone pX0 [] MNone MNone); [cbn; split; [auto|lra]|by_i|by_i|].
  apply (tvv_step pX0 [] MNone MNone pX1 [] MNone MNone); [exact hv_sample1|by_i; exact pE1|cbn [tmexec]; cbn [vv]; rewrite in_sample1; by_i|].
  apply (tvv_step pX1 [] MNone MNone pX1 [] MTree MNone); [cbn; split; discriminate|by_i|by_i|].
  apply (tvv_step pX1 [] MTree MNone qX2 [] MTree MNone); [cbn; lia|by_i; exact qE2|by_i|].
  apply (tvv_step qX2 [] MTree MNone qX2 qX2 MTree MNone); [cbn; repeat split; discriminate|by_i|by_i|].
  apply (tvv_step qX2 qX2 MTree MNone qX2 qX2 MTree MTree); [cbn; split; discriminate|by_i|by_i|].
  apply (tvv_step qX2 qX2 MTree MTree qX2 qX2 MNone MTree); [exact Logic.I|by_i|by_i|].
  apply (tvv_step qX2 qX2 MNone MTree qX3 qX2 MNone MTree); [|by_i; exact qE3|by_i|]. { split; [discriminate|]. split; [lra|]. exists 0, 4. split; [exact qX2_chain|lra]. }
  apply (tvv_step qX3 qX2 MNone MTree qX3 qX2 MPoly MTree); [cbn; split; discriminate|by_i|by_i|].
  apply (tvv_step qX3 qX2 MPoly MTree qX4 qX2 MPoly MTree); [cbn; split; discriminate|by_i; exact qE4|by_i|].
  apply (tvv_step qX4 qX2 MPoly MTree [] qX2 MNone MTree); [exact Logic.I|by_i|by_i|].
  apply (tvv_step [] qX2 MNone MTree [] [] MNone MNone); [exact Logic.I|by_i|by_i|]. exact Logic.I.
Qed.
Example C111_prog_runs : exists N, forall fuel, (N <= fuel)%nat -> exists t', trun fuel t_empty tprog = Done t' /\ tholds t' (tvrun (vv [] []) tprog) (tmrun (vv [] []) (mm MNone MNone) tprog).
Proof. apply C111_programs; [exact t_empty_ok|exact C111_prog_valid]. Qed.

(** a tube of two slices with a tree, and another tube *)
Lemma t_two : exists t, tholds t (vv pX1 pX0) (mm MTree MNone).
Proof.
  destruct (texec_ok _ _ _ 5 (TH (HNew 0 0 4 (I2 0 1))) t_empty_ok) as (t1 & _ & H1). { cbn. split; [auto|lra]. } { cbn; lia. }
  assert (K1 : tholds t1 (vv pX0 []) (mm MNone MNone)) by (eapply tholds_ext; [exact H1|by_i|by_i]).
  destruct (texec_ok _ _ _ 5 (TH (HSample 0 1)) K1) as (t2 & _ & H2). { exact hv_sample1. } { cbn; lia. }
  assert (K2 : tholds t2 (vv pX1 []) (mm MNone MNone)). { eapply tholds_ext; [exact H2|by_i; symmetry; exact pE1|]. cbn [tmexec]. cbn [vv]. rewrite in_sample1. by_i. }
  destruct (texec_ok _ _ _ 5 (TH (HNew 1 0 4 (I2 0 1))) K2) as (t3 & _ & H3). { cbn. split; [auto|lra]. } { cbn; lia. }
  assert (K3 : tholds t3 (vv pX1 pX0) (mm MNone MNone)) by (eapply tholds_ext; [exact H3|by_i|by_i]).
  destruct (texec_ok _ _ _ 5 (TTree 0) K3) as (t4 & _ & H4). { cbn. split; discriminate. } { cbn; lia. }
  exists t4. eapply tholds_ext; [exact H4|by_i|by_i].
Qed.
Lemma t_two_poly : exists t, tholds t (vv pX0 []) (mm MPoly MNone).
Proof.
  destruct (texec_ok _ _ _ 5 (TH (HNew 0 0 4 (I2 0 1))) t_empty_ok) as (t1 & _ & H1). { cbn. split; [auto|lra]. } { cbn; lia. }
  assert (K1 : tholds t1 (vv pX0 []) (mm MNone MNone)) by (eapply tholds_ext; [exact H1|by_i|by_i]).
  destruct (texec_ok _ _ _ 5 (TPoly 0) K1) as (t2 & _ & H2). { cbn. split; discriminate. } { cbn; lia. }
  exists t2. eapply tholds_ext; [exact H2|by_i|by_i].
Qed.
Lemma pX1_chain : chain_from 0 pX1 4. Proof. unfold pX1. cbn. lra. Qed.
Lemma hv_remove1 b : hvalid (vv pX1 b) (HRemove 0 1).
Proof. unfold pX1. cbn. reval. exists 0%nat. do 2 eexists. split; [reflexivity|]. split; [reflexivity|]. split; [reflexivity|]. cbn. lra. Qed.
Example C111_queries_case : exists t, tholds t (vv pX1 pX0) (mm MTree MNone) /\ nb_slices 2 t 0 = Done 2%nat.
Proof. destruct t_two as (t & H). exists t. split; auto. destruct (C111_queries t _ _ 0 2 H) as (_ & _ & E & _); [discriminate|cbn; lia|exact E]. Qed.

(** ** The calls of C110 are not all safe on a tube with a tree *)
(** x = y, with x of two slices with a tree *)
Theorem C111_assign_refuted : exists t v m d s, tholds t v m /\ hvalid v (HAssign d s) /\ forall fuel, (2 <= fuel)%nat -> texec fuel t (TH (HAssign d s)) = Undef.
Proof.
  destruct t_two as (t & H). exists t, (vv pX1 pX0), (mm MTree MNone), 0%nat, 1%nat. split; auto. split; [cbn; split; discriminate|]. intros fuel F. apply (C111_assign t (vv pX1 pX0) (mm MTree MNone)); auto.
Qed.
(** x.remove_gate(1), then the destruction of x *)
Theorem C111_remove_refuted : exists t v m d x, tholds t v m /\ hvalid v (HRemove d x) /\ forall fuel, (2 <= fuel)%nat ->
  exists t', texec fuel t (TH (HRemove d x)) = Done t' /\ texec fuel t' (TH (HKill d)) = Undef.
Proof.
  destruct t_two as (t & H). exists t, (vv pX1 pX0), (mm MTree MNone), 0%nat, 1. split; auto. split; [apply hv_remove1|]. intros fuel F.
  destruct (C111_remove t _ _ 0 1 fuel H (hv_remove1 pX0)) as (t' & A & B & _); auto. eauto.
Qed.
(** x.merge_similar_slices(threshold), then the destruction of x *)
Theorem C111_merge_refuted : exists t v m d close, tholds t v m /\ v d <> [] /\ forall fuel, (2 <= fuel)%nat ->
  exists t', texec fuel t (TMerge d close) = Done t' /\ texec fuel t' (TH (HKill d)) = Undef.
Proof.
  destruct t_two as (t & H). exists t, (vv pX1 pX0), (mm MTree MNone), 0%nat, (fun _ _ => true). split; auto. split; [discriminate|]. intros fuel F.
  apply (C111_merge t (vv pX1 pX0) (mm MTree MNone)); auto.
Qed.
(** x.truncate_tdomain([0,1]) *)
Lemma pX1_trunc : length (truncate_tdomain 0 1 pX1) = 1%nat.
Proof.
  destruct (truncate_shape 0 4 pX1 0 1 pX1_chain) as [(l1 & s & l2 & _ & _ & _ & ->)|(l1 & s & m & q & l2 & E & B1 & B2 & ->)]; try lra; [reflexivity|]. exfalso.
  unfold pX1 in E. destruct l1 as [|c [|c2 l1]]; cbn in E.
  - injection E as <- E. destruct m as [|c [|c2 m]]; cbn in E; try discriminate. injection E as <- _. cbn in B2. lra.
  - injection E as _ <- E. cbn in B1. lra.
  - destruct l1; discriminate.
Qed.
Theorem C111_truncate_refuted : exists t v m d a b, tholds t v m /\ tube_ok 0 4 (v d) /\ 0 <= a < b /\ b <= 4 /\ forall fuel, (2 <= fuel)%nat -> texec fuel t (TTruncate d a b) = Undef.
Proof.
  destruct t_two as (t & H). exists t, (vv pX1 pX0), (mm MTree MNone), 0%nat, 0, 1. split; auto. split; [cbn [vv]; unfold pX1; tube_ok_tac|]. split; [lra|]. split; [lra|]. intros fuel F.
  apply (C111_truncate t (vv pX1 pX0) (mm MTree MNone) 0%nat 0 1 0 4); auto; try lra; [exact pX1_chain|]. cbn [vv]. rewrite pX1_trunc. cbn. lia.
Qed.
(** enable_synthesis(POLYNOMIAL) after enable_synthesis(BINARY_TREE): all the tubes are destroyed and a tree is left *)
Theorem C111_synthesis_refuted : exists t v m d, tholds t v m /\ v d <> [] /\ forall fuel, (2 <= fuel)%nat ->
  exists t1 t2 i o, texec fuel t (TPoly d) = Done t1 /\ texec fuel t1 (TH (HKill d)) = Done t2 /\ trees t2 i = Some o /\ forall d', tptr t2 d' <> Some i.
Proof.
  destruct t_two as (t & H). exists t, (vv pX1 pX0), (mm MTree MNone), 0%nat. split; auto. split; [discriminate|]. intros fuel F.
  destruct (C111_lost_tree t _ _ 0 fuel H) as (t1 & t2 & i & o & A & B & _ & C & D); auto. exists t1, t2, i, o. auto.
Qed.
Example C111_lost_polynomial_case : exists t t1 t2 i, tholds t (vv pX0 []) (mm MPoly MNone) /\ texec 1 t (TTree 0) = Done t1 /\ texec 1 t1 (TH (HKill 0)) = Done t2 /\ polys t2 i = true.
Proof.
  destruct t_two_poly as (t & H). destruct (C111_lost_polynomial t _ _ 0 1 H) as (t1 & t2 & i & A & B & _ & C & _); [reflexivity|discriminate|cbn; lia|]. exists t, t1, t2, i. auto.
Qed.

Print Assumptions C111_programs.
Print Assumptions C111_queries.
Print Assumptions C111_no_leak.
Print Assumptions C111_assign.
Print Assumptions C111_remove.
Print Assumptions C111_merge.
Print Assumptions C111_truncate.
Print Assumptions C111_lost_tree.
Print Assumptions C111_lost_polynomial.
Print Assumptions C111_assign_refuted.
Print Assumptions C111_remove_refuted.
Print Assumptions C111_merge_refuted.
Print Assumptions C111_truncate_refuted.
Print Assumptions C111_synthesis_refuted.
