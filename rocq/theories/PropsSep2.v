(** * Separators SepBox, SepTransform (C45), SepCtcPairProj (C46), SepFixPoint (C64) *)

From Coq Require Import Reals Lra Bool List Arith ZArith Lia.
Import ListNotations.
From Verif Require Import Itv Concrete Static PropsStatic PropsDyn2 Sivia PropsSivia PropsSiviaEx Separators PropsSep.
Open Scope R_scope.
Set Bullet Behavior "Strict Subproofs".

(** Specification: [xi'], [xo'] is a valid separation of the boxes [xi], [xo] by the set [S]. *)
Definition separation (S : list R -> Prop) (xi xo xi' xo' : box) : Prop :=
  (forall p, inb p xi' -> inb p xi) /\ (forall p, inb p xo' -> inb p xo) /\
  (forall p, inb p xi -> ~ S p -> inb p xi') /\ (forall p, inb p xo -> S p -> inb p xo').
(** From the same box, each point stays in at least one of the two. *)
Lemma separation_covers S x xi' xo' : separation S x x xi' xo' -> forall p, inb p x -> inb p xi' \/ inb p xo'.
Proof. intros (_ & _ & A & B) p Hp. destruct (Classical_Prop.classic (S p)); auto. Qed.

(** ** SepBox *)
Lemma inb_swap : forall k p x i, inb p x -> (k < length x)%nat -> In (nth k p 0) i -> inb p (firstn k x ++ i :: skipn (S k) x).
Proof.
  induction k as [|k IH]; intros p x i H L Hi; inversion H as [|v j p' x' Hv H']; subst; cbn in L; try lia; cbn [firstn app].
  - constructor; auto.
  - constructor; auto. apply IH; auto. lia.
Qed.
Lemma swap_len k (x : box) i : (k < length x)%nat -> length (firstn k x ++ i :: skipn (S k) x) = length x.
Proof. intros L. rewrite app_length, firstn_length. cbn [length]. rewrite skipn_length. lia. Qed.
Lemma outside_in v i j : wf i -> In v i -> ~ In v j -> is_subset i j = false /\ In v (outside i j).
Proof.
  intros W Hi Hj. split.
  - destruct (is_subset i j) eqn:E; auto. apply is_subset_sub in E. destruct (Hj (E v Hi)).
  - unfold outside. destruct j as [|l h].
    + apply In_hull_l, In_inter. split; auto. cbn. auto.
    + assert (X : (exists a, l = Some a /\ v < a) \/ (exists b, h = Some b /\ b < v)).
      { destruct l as [a|], h as [b|]; cbn in Hj.
        - destruct (Rlt_dec v a); [left; eauto|]. right. exists b. split; auto. destruct (Rlt_dec b v); auto. exfalso. apply Hj. lra.
        - left. exists a. split; auto. destruct (Rlt_dec v a); auto. exfalso. apply Hj. split; auto. lra.
        - right. exists b. split; auto. destruct (Rlt_dec b v); auto. exfalso. apply Hj. split; auto. lra.
        - tauto. }
      destruct X as [(a & -> & X)|(b & -> & X)].
      * apply In_hull_l, In_inter. split; auto. cbn. split; auto. lra.
      * apply In_hull_r, In_inter. split; auto. cbn. split; auto. lra.
Qed.
Lemma sep_box_in_keeps mb x_in p : Forall wf x_in -> inb p x_in -> forall ks acc, length acc = length x_in -> Forall (fun k => (k < length x_in)%nat) ks ->
  length (sep_box_in mb x_in ks acc) = length x_in /\
  (inb p acc \/ (exists k, List.In k ks /\ ~ In (nth k p 0) (nth k mb Emp)) -> inb p (sep_box_in mb x_in ks acc)).
Proof.
  intros W Hp. induction ks as [|k ks IH]; intros acc L F; cbn [sep_box_in].
  - split; auto. intros [H|(k & [] & _)]; auto.
  - inversion F as [|? ? Fk F']; subst. set (sx := firstn k x_in ++ outside (nth k x_in Emp) (nth k mb Emp) :: skipn (S k) x_in).
    assert (Lx : length sx = length x_in) by (apply swap_len; auto).
    set (acc' := if is_subset (nth k x_in Emp) (nth k mb Emp) then acc else b_hull acc sx).
    assert (La : length acc' = length x_in) by (unfold acc'; destruct (is_subset _ _); auto; rewrite b_hull_len; congruence).
    destruct (IH acc' La F') as [A B]. split; auto. intros H. apply B. clear A B IH.
    destruct H as [H|(j & [->|Hj] & N)].
    + left. unfold acc'. destruct (is_subset _ _); auto. apply b_hull_in_l; auto. congruence.
    + left. rewrite Forall_forall in W. destruct (outside_in (nth j p 0) (nth j x_in Emp) (nth j mb Emp)) as [A B]; auto.
      { apply W, nth_In; auto. } { apply inb_nth; auto. }
      unfold acc'. rewrite A. apply b_hull_in_r; [congruence|]. apply inb_swap; auto.
    + right. eauto.
Qed.
Lemma not_inb : forall p b, length p = length b -> ~ inb p b -> exists k, (k < length b)%nat /\ ~ In (nth k p 0) (nth k b Emp).
Proof.
  induction p as [|v p IH]; intros [|i b] L H; try discriminate L; [destruct H; constructor|].
  destruct (Classical_Prop.classic (In v i)) as [Hv|Hv].
  - destruct (IH b) as (k & Lk & N); [cbn in L; lia|intros X; apply H; constructor; auto|]. exists (S k). split; [cbn; lia|auto].
  - exists 0%nat. split; [cbn; lia|auto].
Qed.
(** SepBox is a separator of the box, for each pair of boxes. *)
Theorem C45_box : forall mb xi xo, length xi = length mb -> length xo = length mb -> Forall wf xi ->
  separation (fun p => inb p mb) xi xo (fst (sep_box mb xi xo)) (snd (sep_box mb xi xo)).
Proof.
  intros mb xi xo Li Lo W. unfold sep_box. cbn [fst snd].
  assert (F : Forall (fun k => (k < length xi)%nat) (seq 0 (length xi))) by (apply Forall_forall; intros k Hk; apply in_seq in Hk; lia).
  assert (LE : length (repeat Emp (length xi)) = length xi) by apply repeat_length.
  assert (LEN : forall p, inb p xi -> length (sep_box_in mb xi (seq 0 (length xi)) (repeat Emp (length xi))) = length xi).
  { intros p Hp. apply (sep_box_in_keeps mb xi p W Hp); auto. }
  refine (conj _ (conj _ (conj _ _))).
  - intros p Hp. destruct (Nat.eq_dec (length (sep_box_in mb xi (seq 0 (length xi)) (repeat Emp (length xi)))) (length xi)) as [E|N].
    + apply inb_sub with (1 := Hp). apply b_inter_sub. auto.
    + exfalso. apply N. clear - LE F. revert LE. generalize (repeat Emp (length xi)). induction F as [|k ks Fk F IH]; intros acc L; cbn [sep_box_in]; auto.
      apply IH. destruct (is_subset _ _); auto. rewrite b_hull_len; auto. rewrite swap_len; auto.
  - intros p Hp. apply inb_sub with (1 := Hp). apply b_inter_sub. lia.
  - intros p Hp N. apply b_inter_in; auto. apply (sep_box_in_keeps mb xi p W Hp); auto. right.
    destruct (not_inb p mb) as (k & Lk & X); auto; [apply F2_len in Hp; lia|]. exists k. split; auto. apply in_seq. lia.
  - intros p Hp X. apply b_inter_in; auto.
Qed.

(** ** SepTransform *)
(** what is expected of the functions of IBEX: [ffwd] and [fbwd] enclose [f] and its inverse, [bwd] contracts *)
Record transform_ok (f g : list R -> list R) (ffwd fbwd : box -> box) (bwd : box -> box -> box) : Prop := {
  t_inv : forall p, g (f p) = p;
  t_fwd : forall p x, inb p x -> inb (f p) (ffwd x);
  t_bwd : forall q y, inb q y -> inb (g q) (fbwd y);
  t_keep : forall y x p, inb p x -> inb (f p) y -> inb p (bwd y x);
  t_sub : forall y x, Forall2 sub (bwd y x) x;
  t_len : forall x y, length y = length (ffwd x) -> length (fbwd y) = length x }.
(** From the same box, SepTransform is a separator of the set of the points whose image is in [S]. *)
Theorem C45_transform_partial : forall f g ffwd fbwd bwd s S x, transform_ok f g ffwd fbwd bwd -> sep_ok S s ->
  separation (fun p => S (f p)) x x (fst (sep_transform s ffwd fbwd bwd x x)) (snd (sep_transform s ffwd fbwd bwd x x)).
Proof.
  intros f g ffwd fbwd bwd s S x T HS. unfold sep_transform. cbn [fst snd]. set (z := b_inter x x).
  assert (Z : forall p, inb p x <-> inb p z).
  { intros p. split; [intros; apply b_inter_in; auto|]. intros H. apply inb_sub with (1 := H). apply b_inter_sub. auto. }
  assert (LZ : length z = length x) by (apply (F2_len sub); apply b_inter_sub; auto).
  destruct (s_sub _ _ HS (ffwd z) (ffwd z)) as [L1 L2]. apply F2_len in L1. apply F2_len in L2. apply (t_len _ _ _ _ _ T) in L1. apply (t_len _ _ _ _ _ T) in L2.
  assert (SUB : forall yb xb p, length (fbwd yb) = length z -> length xb = length x -> inb p (if b_is_empty yb then b_set_empty xb else bwd yb (b_inter xb (fbwd yb))) -> inb p xb).
  { intros yb xb p LB L H. destruct (b_is_empty yb); [apply inb_sub with (1 := H); apply set_empty_sub|].
    apply (inb_sub _ _ (b_inter xb (fbwd yb))) in H; [|apply (t_sub _ _ _ _ _ T)]. apply inb_sub with (1 := H). apply b_inter_sub. congruence. }
  assert (KEEP : forall yb xb p, inb p xb -> inb (f p) yb -> inb p (if b_is_empty yb then b_set_empty xb else bwd yb (b_inter xb (fbwd yb)))).
  { intros yb xb p Hx Hy. rewrite (inb_empty _ _ Hy). apply (t_keep _ _ _ _ _ T); auto. apply b_inter_in; auto.
    rewrite <- (t_inv _ _ _ _ _ T p) at 1. apply (t_bwd _ _ _ _ _ T). auto. }
  refine (conj _ (conj _ (conj _ _))).
  - intros p H. apply Z. eapply SUB; [exact L1|exact LZ|exact H].
  - intros p H. eapply SUB; [exact L2|reflexivity|exact H].
  - intros p H N. apply KEEP; [apply Z; auto|]. apply (s_keep_in _ _ HS); auto. apply (t_fwd _ _ _ _ _ T), Z. auto.
  - intros p H N. apply KEEP; [auto|]. apply (s_keep_out _ _ HS); auto. apply (t_fwd _ _ _ _ _ T), Z. auto.
Qed.
(** For two different boxes, SepTransform removes points out of the set from x_in: x_in is first intersected with
    x_out. *)
Theorem C45_refuted : exists f g ffwd fbwd bwd s S xi xo p, transform_ok f g ffwd fbwd bwd /\ sep_ok S s /\ length xi = length xo /\
  inb p xi /\ ~ S (f p) /\ ~ inb p (fst (sep_transform s ffwd fbwd bwd xi xo)).
Proof.
  exists (fun p => p), (fun p => p), (fun x => x), (fun x => x), (fun y x => cut y x), (box_sep [I2 0 1]), (fun p => inb p [I2 0 1]), [I2 0 4], [I2 0 2], [3].
  refine (conj _ (conj (box_sep_ok _) (conj eq_refl (conj _ (conj _ _))))).
  - constructor; auto; intros.
    + apply (c_keeps _ _ (cut_ok y)); auto.
    + apply (c_contracts _ _ (cut_ok y)).
  - boxt.
  - intros H. inversion H; subst. cbn in *. lra.
  - unfold sep_transform. cbn [fst snd]. intros H. destruct (b_is_empty _).
    + apply (inb_sub _ _ (b_inter [I2 0 4] [I2 0 2])) in H; [|apply set_empty_sub].
      unfold b_inter, I2 in H. cbn in H. rewrite Rmax_left, Rmin_right in H by lra. rewrite Rle_dec_t in H by lra. cbn in H. inversion H; subst; cbn in *; lra.
    + match type of H with inb _ (cut ?y ?x) => apply (inb_sub _ _ x) in H; [|apply (c_contracts _ _ (cut_ok y))] end.
      match type of H with inb _ (b_inter ?a ?b) => apply (inb_sub _ _ a) in H; [|apply b_inter_sub] end.
      * unfold b_inter, I2 in H. cbn in H. rewrite Rmax_left, Rmin_right in H by lra. rewrite Rle_dec_t in H by lra. cbn in H. inversion H; subst; cbn in *; lra.
      * symmetry. rewrite <- (F2_len sub _ _ (proj1 (s_sub _ _ (box_sep_ok [I2 0 1]) (b_inter [I2 0 4] [I2 0 2]) (b_inter [I2 0 4] [I2 0 2])))). auto.
Qed.
(** a concrete use: a translation of a box by 1 *)
Definition shift (d : R) (x : box) : box := map (fun i => match i with Emp => Emp | Itv l h => Itv (option_map (Rplus d) l) (option_map (Rplus d) h) end) x.
Lemma shift_in d p x : inb p x -> inb (map (Rplus d) p) (shift d x).
Proof. induction 1 as [|v i p x Hv H IH]; cbn; constructor; auto. destruct i as [|[a|] [b|]]; cbn in *; auto; lra. Qed.
Lemma shift_ok d : transform_ok (map (Rplus d)) (map (Rplus (- d))) (shift d) (shift (- d)) (fun y x => cut (shift (- d) y) x).
Proof.
  assert (I : forall p, map (Rplus (- d)) (map (Rplus d) p) = p).
  { intros p. rewrite map_map. rewrite <- (map_id p) at 2. apply map_ext. intros v. lra. }
  constructor; auto; intros.
  - apply shift_in; auto.
  - apply shift_in; auto.
  - apply (c_keeps _ _ (cut_ok (shift (- d) y))); auto. rewrite <- (I p). apply shift_in; auto.
  - apply (c_contracts _ _ (cut_ok (shift (- d) y))).
  - unfold shift in *. rewrite map_length in *. auto.
Qed.
Example C45_box_ex : let r := sep_box [I2 0 2; I2 0 2] [I2 1 4; I2 1 2] [I2 1 4; I2 1 2] in inb [1; 1] (snd r) /\ inb [4; 1] (fst r) /\ fst r = [I2 2 4; I2 1 2].
Proof.
  cbv zeta. destruct (C45_box [I2 0 2; I2 0 2] [I2 1 4; I2 1 2] [I2 1 4; I2 1 2]) as (_ & _ & A & B); auto; [boxt|].
  refine (conj _ (conj _ _)).
  - apply B; boxt.
  - apply A; [boxt|]. intros H. inversion H; subst. cbn in *. lra.
  - unfold sep_box, sep_box_in, b_inter, b_hull, outside, I2. cbn. reval. reflexivity.
Qed.
Example C45_transform_ex : let r := sep_transform (box_sep [I2 1 3]) (shift 1) (shift (- 1)) (fun y x => cut (shift (- 1) y) x) [I2 1 4] [I2 1 4] in
  inb [1] (snd r) /\ inb [4] (fst r).
Proof.
  cbv zeta.
  destruct (C45_transform_partial _ _ _ _ _ _ _ [I2 1 4] (shift_ok 1) (box_sep_ok [I2 1 3])) as (_ & _ & A & B). split.
  - apply B; boxt.
  - apply A; [boxt|]. intros H. inversion H; subst. cbn in *. lra.
Qed.

(** ** SepCtcPairProj *)
(** The first constructor gives a separator of the projection { x | exists y in [y], (x,y) in S }, when the contractors
    that are given keep the points of the set (ctc_out), of its complement (ctc_in). *)
Theorem C46_first : forall forall_ exists_ ctc_in ctc_out y prec (S : list R -> Prop) x, Forall wf x ->
  (forall P c, ctc_ok P c -> ctc_ok (fun p => forall q, inb q y -> P (p ++ q)) (forall_ c y prec)) ->
  (forall P c, ctc_ok P c -> ctc_ok (fun p => exists q, inb q y /\ P (p ++ q)) (exists_ c y prec)) ->
  ctc_ok (fun r => ~ S r) ctc_in -> ctc_ok S ctc_out ->
  let o := new_ctcs forall_ exists_ ctc_in ctc_out y prec in
  (exists xi xo, pp_separate o x x = Some (xi, xo) /\ separation (fun p => exists q, inb q y /\ S (p ++ q)) x x xi xo) /\ pp_destroy o = Some tt.
Proof.
  intros forall_ exists_ ci co y prec S x W HF HE Hi Ho o. split; [|reflexivity]. unfold pp_separate, o, new_ctcs. cbn [ctcExist ctcForAll].
  assert (E : forall z, box_eqb z z = true).
  { induction z as [|i z IH]; cbn; auto. rewrite IH, andb_true_r. destruct i as [|[a|] [b|]]; cbn; auto; unfold Reqb; repeat destruct (Req_EM_T _ _); try congruence; auto. }
  rewrite E. exists (forall_ ci y prec x), (exists_ co y prec x). split; auto. pose proof (HF _ _ Hi) as A. pose proof (HE _ _ Ho) as B. refine (conj _ (conj _ (conj _ _))).
  - intros p H. apply inb_sub with (1 := H). apply (c_contracts _ _ A).
  - intros p H. apply inb_sub with (1 := H). apply (c_contracts _ _ B).
  - intros p H N. apply (c_keeps _ _ A); auto. intros q Hq X. apply N. eauto.
  - intros p H X. apply (c_keeps _ _ B); auto.
Qed.
(** The objects built by the two other constructors cannot be used, nor destroyed. *)
Theorem C46_refuted : forall forall_ exists_ ctc_in ctc_out s y prec,
  (forall x_in x_out, pp_separate (new_pair forall_ exists_ ctc_in ctc_out y prec) x_in x_out = None) /\
  (forall x_in x_out, pp_separate (new_sep forall_ exists_ s y prec) x_in x_out = None) /\
  pp_destroy (new_pair forall_ exists_ ctc_in ctc_out y prec) = None /\ pp_destroy (new_sep forall_ exists_ s y prec) = None.
Proof.
  intros. refine (conj _ (conj _ (conj eq_refl eq_refl))); intros; unfold pp_separate, new_pair, new_sep; destruct (box_eqb _ _); auto.
Qed.

(** a concrete case of C46_first: the set [0,2]x[0,2], projected on the first axis with y in [0,1] *)
Definition proj (c : ctc_t) (y x : box) : box :=
  let r := c (x ++ y) in if existsb is_empty r then b_set_empty x else firstn (length x) r.
Lemma proj_ok P c y : Forall wf y -> ctc_ok P c -> ctc_ok (fun p => exists q, inb q y /\ P (p ++ q)) (proj c y).
Proof.
  intros Wy [A B C D]. unfold proj. constructor.
  - intros x p Hp (q & Hq & HP). assert (H : inb (p ++ q) (c (x ++ y))) by (apply A; auto; apply inb_app; auto).
    rewrite (inb_not_empty _ _ H). apply (inb_firstn _ (length x)) in H. destruct H as [H _].
    rewrite firstn_app, (F2_len _ _ _ Hp), Nat.sub_diag in H. cbn in H. rewrite app_nil_r in H. rewrite <- (F2_len _ _ _ Hp) in H. rewrite firstn_all in H. rewrite <- (F2_len _ _ _ Hp). exact H.
  - intros x. destruct (existsb _ _); [apply set_empty_sub|]. pose proof (sub_firstn (length x) _ _ (B (x ++ y))) as [H _].
    rewrite firstn_app, Nat.sub_diag in H. cbn in H. rewrite app_nil_r, firstn_all in H. exact H.
  - intros x W. destruct (existsb _ _); [apply set_empty_wf|]. assert (H : Forall wf (c (x ++ y))) by (apply C; apply Forall_app; auto).
    rewrite Forall_forall in *. intros i Hi. apply H. rewrite <- (firstn_skipn (length x)). apply in_or_app. auto.
  - intros x. destruct (existsb is_empty (c (x ++ y))) eqn:E; [apply set_empty_normal|]. intros _ H.
    assert (existsb is_empty (c (x ++ y)) = true); [|congruence]. apply existsb_exists. exists Emp. split; auto.
    rewrite <- (firstn_skipn (length x)). apply in_or_app. auto.
Qed.
Lemma ctc_ok_impl (P Q : list R -> Prop) c : (forall p, Q p -> P p) -> ctc_ok P c -> ctc_ok Q c.
Proof. intros H [A B C D]. constructor; auto. intros x p Hp HQ. apply A; auto. Qed.
Definition nz (x : box) : box := if existsb is_empty x then b_set_empty x else x.
Lemma nz_ok P : ctc_ok P nz.
Proof.
  unfold nz. constructor.
  - intros x p Hp _. rewrite (inb_not_empty _ _ Hp). auto.
  - intros x. destruct (existsb _ _); [apply set_empty_sub|apply F2_sub_refl].
  - intros x W. destruct (existsb _ _); [apply set_empty_wf|auto].
  - apply normal_or_empty.
Qed.
Example C46_first_ex : let o := new_ctcs (fun c y _ => proj c [pt 0]) (fun c y _ => proj c y) nz (cut [I2 0 2; I2 0 2]) [I2 0 1] (1 / 10) in
  exists xi xo, pp_separate o [I2 1 4] [I2 1 4] = Some (xi, xo) /\ inb [1] xo /\ inb [3] xi.
Proof.
  cbv zeta. destruct (C46_first (fun c y _ => proj c [pt 0]) (fun c y _ => proj c y) nz (cut [I2 0 2; I2 0 2]) [I2 0 1] (1 / 10) (fun r => inb r [I2 0 2; I2 0 2]) [I2 1 4]) as [(xi & xo & E & _ & _ & A & B) _].
  - boxt.
  - intros P c H. eapply ctc_ok_impl; [|apply proj_ok; [|exact H]].
    + cbn. intros p Hp. exists [0]. split; [boxt|]. apply Hp. boxt.
    + boxt.
  - intros P c H. apply proj_ok; auto. boxt.
  - apply nz_ok.
  - apply cut_ok.
  - exists xi, xo. refine (conj E (conj _ _)).
    + apply B; [boxt|]. exists [0]. split; cbn; boxt.
    + apply A; [boxt|]. intros (q & _ & H). cbn in H. inversion H; subst. cbn in *. lra.
Qed.

(** ** SepFixPoint *)
Lemma itv_eqb_eq i j : itv_eqb i j = true -> i = j.
Proof. destruct i as [|[a|] [b|]], j as [|[c|] [d|]]; cbn; intros H; try discriminate; auto; rewrite ?andb_true_r, ?andb_true_iff in H; unfold Reqb in H; repeat destruct (Req_EM_T _ _); try (destruct H; discriminate); try discriminate; subst; auto. Qed.
Lemma box_eqb_eq : forall a b, box_eqb a b = true -> a = b.
Proof. induction a as [|i a IH]; intros [|j b] H; cbn in H; try discriminate; auto. apply andb_true_iff in H. destruct H as [H1 H2]. apply itv_eqb_eq in H1. f_equal; auto. Qed.

Lemma inb_set_empty p a : inb p (b_set_empty a) -> a = [].
Proof. destruct a; cbn; auto. intros H. inversion H as [|? ? ? ? Y]; destruct Y. Qed.
Lemma inb_inter p a b : length a = length b -> inb p (b_inter a b) -> inb p a /\ inb p b.
Proof.
  intros L H. split; [apply inb_sub with (1 := H); apply b_inter_sub; auto|]. unfold b_inter in H.
  destruct (b_is_empty a) eqn:Ea; [apply inb_empty in H; congruence|]. destruct (b_is_empty b) eqn:Eb; [apply inb_set_empty in H; subst; destruct b; discriminate|].
  destruct (existsb is_empty (map2 inter a b)) eqn:E; [apply inb_set_empty in H; subst; discriminate|]. clear - L H. revert p b L H.
  induction a as [|i a IH]; intros p [|j b] L H; try discriminate L; inversion H; subst; constructor.
  - match goal with X : In _ (inter _ _) |- _ => apply In_inter in X end. tauto.
  - apply IH; auto.
Qed.

Section Fix.
  Variables (S : list R -> Prop) (sep : sep_t) (diff : box -> box -> list box) (dist : box -> box -> R) (ratio : R).
  Hypothesis HS : sep_ok S sep.
  (** no inner contraction: only points out of the set were removed; no outer contraction: only points of the set *)
  Definition inv (x0 x : box) (fl : flags) : Prop :=
    length x = length x0 /\ (forall p, inb p x -> inb p x0) /\
    (f_cin fl = None -> forall p, inb p x0 -> ~ inb p x -> ~ S p) /\
    (f_cout fl = None -> forall p, inb p x0 -> ~ inb p x -> S p).
  Lemma flag_none f x x0 : set_flag diff f x x0 = None -> f = None /\ x = x0.
  Proof. unfold set_flag. destruct f; [discriminate|]. destruct (box_eqb x x0) eqn:E; [|discriminate]. intros _. split; auto. apply box_eqb_eq; auto. Qed.
  Lemma inv_step x0 x xi xo fl : length xi = length x -> length xo = length x -> (forall p, inb p x <-> inb p xi) -> (forall p, inb p x <-> inb p xo) -> inv x0 x fl ->
    inv x0 (b_inter (fst (sep xi xo)) (snd (sep xi xo)))
      (mkF (set_flag diff (f_cin fl) (fst (sep xi xo)) x) (set_flag diff (f_cout fl) (snd (sep xi xo)) x)).
  Proof.
    intros Li Lo Ei Eo (L & A & B & C). destruct (s_sub _ _ HS xi xo) as [S1 S2].
    assert (L1 : length (fst (sep xi xo)) = length xi) by (apply (F2_len sub); auto).
    assert (L2 : length (snd (sep xi xo)) = length xo) by (apply (F2_len sub); auto).
    assert (SI : Forall2 sub (b_inter (fst (sep xi xo)) (snd (sep xi xo))) (fst (sep xi xo))) by (apply b_inter_sub; congruence).
    refine (conj _ (conj _ (conj _ _))).
    - rewrite (F2_len sub _ _ SI). congruence.
    - intros p H. apply A. apply Ei. apply inb_sub with (1 := inb_sub _ _ _ H SI). auto.
    - cbn. intros F p H N X. apply flag_none in F. destruct F as [F F']. destruct (Classical_Prop.classic (inb p x)) as [Hx|Hx].
      + apply N. apply b_inter_in; [rewrite F'; auto|]. apply (s_keep_out _ _ HS); auto. apply Eo; auto.
      + destruct (B F p H Hx X).
    - cbn. intros F p H N. apply flag_none in F. destruct F as [F F']. destruct (Classical_Prop.classic (inb p x)) as [Hx|Hx]; [|auto].
      destruct (Classical_Prop.classic (S p)) as [|X]; auto. exfalso. apply N. apply b_inter_in; [|rewrite F'; auto]. apply (s_keep_in _ _ HS); auto. apply Ei; auto.
  Qed.
  Lemma fix_inv x0 : forall fuel xi xo x fl a b fl', length xi = length x -> length xo = length x -> (forall p, inb p x <-> inb p xi) -> (forall p, inb p x <-> inb p xo) -> inv x0 x fl ->
    fix_loop diff dist ratio sep fuel xi xo x fl = Some (a, b, fl') ->
      inv x0 (b_inter a b) fl' /\ (forall p, inb p a -> inb p x0) /\ (forall p, inb p b -> inb p x0) /\ length a = length b.
  Proof.
    induction fuel as [|fuel IH]; intros xi xo x fl a b fl' Li Lo Ei Eo I H; [discriminate|]. cbn [fix_loop] in H. cbv zeta in H.
    pose proof (inv_step x0 x xi xo fl Li Lo Ei Eo I) as I'. set (x' := b_inter (fst (sep xi xo)) (snd (sep xi xo))) in *.
    destruct (s_sub _ _ HS xi xo) as [S1 S2].
    assert (A0 : forall p, inb p x -> inb p x0) by (destruct I as (_ & A & _); auto).
    destruct (b_is_empty x') eqn:E.
    - injection H as <- <- <-. refine (conj I' (conj _ (conj _ _))).
      + intros p Hp; apply A0, Ei; apply inb_sub with (1 := Hp); auto.
      + intros p Hp; apply A0, Eo; apply inb_sub with (1 := Hp); auto.
      + rewrite (F2_len sub _ _ S1), (F2_len sub _ _ S2). congruence.
    - assert (XX : forall p, inb p (b_inter x' x') <-> inb p x').
      { intros p. split; [|intros; apply b_inter_in; auto]. intros Hp. apply inb_sub with (1 := Hp). apply b_inter_sub. auto. }
      destruct (Rltb ratio (dist x x')).
      + apply IH in H; auto; tauto.
      + injection H as <- <- <-. destruct I' as (L & A & B & C). refine (conj (conj _ (conj _ (conj _ _))) (conj A (conj A eq_refl))).
        * rewrite (F2_len sub _ _ (b_inter_sub x' x' eq_refl)). auto.
        * intros p Hp. apply A, XX. auto.
        * intros F p Hp N. apply B; auto. intros X. apply N, XX. auto.
        * intros F p Hp N. apply C; auto. intros X. apply N, XX. auto.
  Qed.
End Fix.
(** When, during the iterations, at most one of the two contractions has an effect, SepFixPoint of a separator of [S]
    is a separator of [S]. *)
Theorem C64_partial : forall S sep diff dist ratio asserts fuel x xi xo a b fl, sep_ok S sep ->
  fix_loop diff dist ratio sep fuel x x (b_inter x x) (mkF None None) = Some (a, b, fl) -> f_cin fl = None \/ f_cout fl = None ->
  sep_fix diff dist ratio asserts sep fuel x x = Some (xi, xo) -> separation S x x xi xo.
Proof.
  intros S sep diff dist ratio asserts fuel x xi xo a b fl HS E F H. unfold sep_fix in H. rewrite E in H.
  assert (XX : forall p, inb p (b_inter x x) <-> inb p x).
  { intros p. split; [|intros; apply b_inter_in; auto]. intros Hp. apply inb_sub with (1 := Hp). apply b_inter_sub. auto. }
  assert (LX : length (b_inter x x) = length x) by (apply (F2_len sub), b_inter_sub; auto).
  apply (fix_inv S sep diff dist ratio HS (b_inter x x)) in E; auto.
  2:{ refine (conj eq_refl (conj _ (conj _ _))); auto; intros; tauto. }
  destruct E as ((L & A & B & C) & D1 & D2 & LAB). unfold reconstruct in H. set (z := b_inter a b) in *.
  assert (ZA : forall p, inb p z -> inb p a /\ inb p b) by (intros p; apply inb_inter; auto).
  assert (SUBZ : forall p, inb p z -> inb p x) by (intros p Hp; apply XX; auto).
  destruct (box_eqb z (b_inter x x)) eqn:EQ.
  - apply box_eqb_eq in EQ. injection H as <- <-. refine (conj _ (conj _ (conj _ _))).
    + intros p Hp. apply XX, D1. auto.
    + intros p Hp. apply XX, D2. auto.
    + intros p Hp _. apply ZA. rewrite EQ. apply XX. auto.
    + intros p Hp _. apply ZA. rewrite EQ. apply XX. auto.
  - destruct (f_cin fl) eqn:F1, (f_cout fl) eqn:F2.
    + destruct F; discriminate.
    + injection H as <- <-. refine (conj _ (conj _ (conj _ _))); auto.
      * intros p Hp. apply XX. auto.
      * intros p Hp N. destruct (Classical_Prop.classic (inb p z)) as [|Z]; auto. destruct N. apply C; auto. apply XX. auto.
      * intros p Hp _. apply XX. auto.
    + injection H as <- <-. refine (conj _ (conj _ (conj _ _))); auto.
      * intros p Hp. apply XX. auto.
      * intros p Hp _. apply XX. auto.
      * intros p Hp N. destruct (Classical_Prop.classic (inb p z)) as [|Z]; auto. destruct (B eq_refl p); auto. apply XX. auto.
    + assert (ZX : forall p, inb p x -> inb p z).
      { intros p Hp. destruct (Classical_Prop.classic (inb p z)) as [|Z]; auto. destruct (B eq_refl p); auto; [apply XX; auto|]. apply C; auto. apply XX. auto. }
      destruct asserts; [discriminate|]. injection H as <- <-. refine (conj _ (conj _ (conj _ _))).
      * intros p Hp. apply XX, D1. auto.
      * intros p Hp. apply XX, D2. auto.
      * intros p Hp _. apply ZA, ZX. auto.
      * intros p Hp _. apply ZA, ZX. auto.
Qed.

(** In general SepFixPoint of a separator is not a separator, even when all its assertions hold: the points that are
    removed by the two contractors on the same side are all given back to x_out only.  The set is { v | v < 1 }, the box
    [0,10]; the value 3/2 is not in the set but it is removed from x_in. *)
Definition half (p : list R) : Prop := exists v, p = [v] /\ v < 1.
Definition from (a : R) : itv := Itv (Some a) None.
Definition upto (a : R) : itv := Itv None (Some a).
Definition lazy_sep : sep_t := fun xi xo =>
  (match xi with [i] => cut [from 1] xi | _ => nz xi end,
   match xo with [i] => if is_subset i (from 1) then cut [from 2] xo else cut [upto 8] xo | _ => nz xo end).
Lemma lazy_ok : sep_ok half lazy_sep.
Proof.
  assert (C : forall b x (p : list R), length x = length b -> inb p x -> inb p b -> inb p (cut b x)) by (intros b x p _ H1 H2; apply (c_keeps _ _ (cut_ok b)); auto).
  constructor; unfold lazy_sep; cbn [fst snd].
  - intros xi xo p Hp N. destruct xi as [|i [|j xi]]; [apply (c_keeps _ _ (nz_ok (fun _ => True))); auto| |apply (c_keeps _ _ (nz_ok (fun _ => True))); auto].
    apply C; auto. inversion Hp as [|v ? q ? Hv Hq]; subst. inversion Hq; subst. constructor; [|constructor]. cbn. split; auto.
    destruct (Rle_dec 1 v); auto. destruct N. exists v. split; auto. lra.
  - intros xi xo p Hp (v & -> & Hv). inversion Hp as [|? i ? ? Hi Hq]; subst. inversion Hq; subst.
    destruct (is_subset i (from 1)) eqn:E.
    + apply is_subset_sub in E. apply E in Hi. cbn in Hi. lra.
    + apply C; auto. constructor; [|constructor]. cbn. lra.
  - intros xi xo. split.
    + destruct xi as [|i [|j xi]]; [apply (c_contracts _ _ (nz_ok (fun _ => True)))|apply (c_contracts _ _ (cut_ok _))|apply (c_contracts _ _ (nz_ok (fun _ => True)))].
    + destruct xo as [|i [|j xo]]; [apply (c_contracts _ _ (nz_ok (fun _ => True)))|destruct (is_subset _ _); apply (c_contracts _ _ (cut_ok _))|apply (c_contracts _ _ (nz_ok (fun _ => True)))].
  - intros xi xo Wi Wo. split.
    + destruct xi as [|i [|j xi]]; [apply (c_boxes _ _ (nz_ok (fun _ => True)))|apply (c_boxes _ _ (cut_ok _))|apply (c_boxes _ _ (nz_ok (fun _ => True)))]; auto.
    + destruct xo as [|i [|j xo]]; [apply (c_boxes _ _ (nz_ok (fun _ => True)))|destruct (is_subset _ _); apply (c_boxes _ _ (cut_ok _))|apply (c_boxes _ _ (nz_ok (fun _ => True)))]; auto.
  - intros xi xo. split.
    + destruct xi as [|i [|j xi]]; [apply (c_normal _ _ (nz_ok (fun _ => True)))|apply cut_normal|apply (c_normal _ _ (nz_ok (fun _ => True)))].
    + destruct xo as [|i [|j xo]]; [apply (c_normal _ _ (nz_ok (fun _ => True)))|destruct (is_subset _ _); apply cut_normal|apply (c_normal _ _ (nz_ok (fun _ => True)))].
Qed.
(** rel_distance on bounded intervals: the largest displacement of a bound, relative to the width *)
Definition rdist (x y : box) : R :=
  match x, y with
  | [Itv (Some a) (Some b)], [Itv (Some c) (Some d)] => Rmax (Rabs (a - c)) (Rabs (b - d)) / (b - a)
  | _, _ => 0
  end.
Lemma lazy_1 : lazy_sep [I2 0 10] [I2 0 10] = ([I2 1 10], [I2 0 8]).
Proof. unfold lazy_sep, cut, b_inter, I2, from, upto. cbn. reval. cbn. reval. reflexivity. Qed.
Lemma lazy_2 : lazy_sep [I2 1 8] [I2 1 8] = ([I2 1 8], [I2 2 8]).
Proof. unfold lazy_sep, cut, b_inter, I2, from, upto. cbn. reval. cbn. reval. reflexivity. Qed.
Lemma lazy_3 : lazy_sep [I2 2 8] [I2 2 8] = ([I2 2 8], [I2 2 8]).
Proof. unfold lazy_sep, cut, b_inter, I2, from, upto. cbn. reval. cbn. reval. reflexivity. Qed.
Lemma inter1 a b c d : Rmax a c <= Rmin b d -> b_inter [I2 a b] [I2 c d] = [I2 (Rmax a c) (Rmin b d)].
Proof. intros H. unfold b_inter, I2. cbn. rewrite Rle_dec_t by auto. reflexivity. Qed.
Lemma lazy_fix : fix_loop cdiff rdist (1 / 10) lazy_sep 3 [I2 0 10] [I2 0 10] [I2 0 10] (mkF None None) =
  Some ([I2 2 8], [I2 2 8], mkF (Some [[I2 0 1]]) (Some [[I2 8 10]])).
Proof.
  assert (B1 : b_inter [I2 1 10] [I2 0 8] = [I2 1 8]) by (unfold b_inter, I2; cbn; reval; reflexivity).
  assert (B2 : b_inter [I2 1 8] [I2 2 8] = [I2 2 8]) by (unfold b_inter, I2; cbn; reval; reflexivity).
  assert (B3 : b_inter [I2 2 8] [I2 2 8] = [I2 2 8]) by (unfold b_inter, I2; cbn; reval; reflexivity).
  assert (F1 : set_flag cdiff None [I2 1 10] [I2 0 10] = Some [[I2 0 1]]).
  { unfold set_flag, box_eqb, cdiff, I2. cbn. reval. reflexivity. }
  assert (F2 : set_flag cdiff None [I2 0 8] [I2 0 10] = Some [[I2 8 10]]).
  { unfold set_flag, box_eqb, cdiff, I2. cbn. reval. reflexivity. }
  assert (D1 : Rltb (1 / 10) (rdist [I2 0 10] [I2 1 8]) = true).
  { apply Rltb_true. unfold rdist, I2. rewrite (Rabs_left (0 - 1)), (Rabs_right (10 - 8)), Rmax_right by lra. lra. }
  assert (D2 : Rltb (1 / 10) (rdist [I2 1 8] [I2 2 8]) = true).
  { apply Rltb_true. unfold rdist, I2. rewrite (Rabs_left (1 - 2)), (Rabs_right (8 - 8)), Rmax_left by lra. lra. }
  assert (D3 : Rltb (1 / 10) (rdist [I2 2 8] [I2 2 8]) = false).
  { apply Rltb_false. unfold rdist, I2. rewrite (Rabs_right (2 - 2)), (Rabs_right (8 - 8)), Rmax_left by lra. lra. }
  cbn [fix_loop]. cbv zeta. rewrite lazy_1. cbn [fst snd f_cin f_cout]. rewrite F1, F2, B1. cbn [b_is_empty is_empty I2]. fold (I2 1 8). rewrite D1.
  rewrite lazy_2. cbn [fst snd f_cin f_cout]. unfold set_flag at 1 2. rewrite B2. cbn [b_is_empty is_empty I2]. fold (I2 2 8). rewrite D2.
  rewrite lazy_3. cbn [fst snd f_cin f_cout]. unfold set_flag. rewrite B3. cbn [b_is_empty is_empty I2]. fold (I2 2 8). rewrite D3. reflexivity.
Qed.
Lemma lazy_result asserts : sep_fix cdiff rdist (1 / 10) asserts lazy_sep 3 [I2 0 10] [I2 0 10] = Some ([I2 2 10], [I2 0 8]).
Proof.
  unfold sep_fix. assert (B0 : b_inter [I2 0 10] [I2 0 10] = [I2 0 10]) by (unfold b_inter, I2; cbn; reval; reflexivity). rewrite B0, lazy_fix.
  unfold reconstruct. assert (B3 : b_inter [I2 2 8] [I2 2 8] = [I2 2 8]) by (unfold b_inter, I2; cbn; reval; reflexivity). rewrite B3. cbv zeta.
  assert (Q : box_eqb [I2 2 8] [I2 0 10] = false) by (unfold I2; cbn; reval; reflexivity). rewrite Q. cbn [f_cin f_cout].
  assert (D : cdiff [I2 0 10] [I2 2 8] = [[I2 0 2]; [I2 8 10]]) by (unfold cdiff, I2; cbn; reval; reflexivity). rewrite D.
  replace (asserts && _) with false by (destruct asserts; reflexivity). unfold give_back. cbn [fold_left fst snd].
  assert (I1 : b_intersects [I2 8 10] [I2 0 2] = false) by (unfold b_intersects, b_inter, I2; cbn; reval; reflexivity).
  assert (I2' : b_intersects [I2 0 1] [I2 0 2] = true) by (unfold b_intersects, b_inter, I2; cbn; reval; reflexivity).
  assert (I3 : b_intersects [I2 8 10] [I2 8 10] = true) by (unfold b_intersects, b_inter, I2; cbn; reval; reflexivity).
  assert (I4 : b_intersects [I2 0 1] [I2 8 10] = false) by (unfold b_intersects, b_inter, I2; cbn; reval; reflexivity).
  cbn [existsb]. rewrite I1, I2', I3, I4. cbn [orb]. unfold b_hull, I2. cbn. reval. reflexivity.
Qed.
Theorem C64_refuted : exists S sep diff dist ratio fuel x xi xo p, sep_ok S sep /\ diff_ok diff /\
  sep_fix diff dist ratio true sep fuel x x = Some (xi, xo) /\ inb p x /\ ~ S p /\ ~ inb p xi.
Proof.
  exists half, lazy_sep, cdiff, rdist, (1 / 10), 3%nat, [I2 0 10], [I2 2 10], [I2 0 8], [3 / 2].
  refine (conj lazy_ok (conj cdiff_ok (conj (lazy_result true) (conj _ (conj _ _))))).
  - boxt.
  - intros (v & E & H). injection E as <-. lra.
  - intros H. inversion H; subst. cbn in *. lra.
Qed.
(** the hypotheses of C64_partial: from the box [1,8], only x_out is contracted *)
Example C64_ex : exists a b fl, fix_loop cdiff rdist (1 / 10) lazy_sep 2 [I2 1 8] [I2 1 8] (b_inter [I2 1 8] [I2 1 8]) (mkF None None) = Some (a, b, fl) /\
  f_cin fl = None /\ f_cout fl <> None /\ sep_fix cdiff rdist (1 / 10) true lazy_sep 2 [I2 1 8] [I2 1 8] = Some ([I2 1 8], [I2 2 8]).
Proof.
  assert (B1 : b_inter [I2 1 8] [I2 1 8] = [I2 1 8]) by (unfold b_inter, I2; cbn; reval; reflexivity).
  assert (B2 : b_inter [I2 1 8] [I2 2 8] = [I2 2 8]) by (unfold b_inter, I2; cbn; reval; reflexivity).
  assert (B3 : b_inter [I2 2 8] [I2 2 8] = [I2 2 8]) by (unfold b_inter, I2; cbn; reval; reflexivity).
  assert (Q : box_eqb [I2 2 8] [I2 1 8] = false) by (unfold I2; cbn; reval; reflexivity).
  assert (Q1 : box_eqb [I2 1 8] [I2 1 8] = true) by (unfold I2; cbn; reval; reflexivity).
  assert (Q2 : box_eqb [I2 2 8] [I2 2 8] = true) by (unfold I2; cbn; reval; reflexivity).
  assert (D2 : Rltb (1 / 10) (rdist [I2 1 8] [I2 2 8]) = true).
  { apply Rltb_true. unfold rdist, I2. rewrite (Rabs_left (1 - 2)), (Rabs_right (8 - 8)), Rmax_left by lra. lra. }
  assert (D3 : Rltb (1 / 10) (rdist [I2 2 8] [I2 2 8]) = false).
  { apply Rltb_false. unfold rdist, I2. rewrite (Rabs_right (2 - 2)), (Rabs_right (8 - 8)), Rmax_left by lra. lra. }
  assert (E : fix_loop cdiff rdist (1 / 10) lazy_sep 2 [I2 1 8] [I2 1 8] [I2 1 8] (mkF None None) = Some ([I2 2 8], [I2 2 8], mkF None (Some (cdiff [I2 1 8] [I2 2 8])))).
  { cbn [fix_loop]. cbv zeta. rewrite lazy_2. cbn [fst snd f_cin f_cout]. unfold set_flag at 1 2. rewrite Q1, Q, B2. cbn [b_is_empty is_empty I2]. fold (I2 2 8). fold (I2 1 8). rewrite D2.
    rewrite lazy_3. cbn [fst snd f_cin f_cout]. unfold set_flag. rewrite Q2, B3. cbn [b_is_empty is_empty I2]. fold (I2 2 8). rewrite D3, Q1, Q. reflexivity. }
  rewrite B1. do 3 eexists. refine (conj E (conj eq_refl (conj _ _))); [discriminate|].
  unfold sep_fix. rewrite B1, E. unfold reconstruct. rewrite B3. cbv zeta. rewrite Q. reflexivity.
Qed.

Print Assumptions C45_box.
Print Assumptions C45_transform_partial.
Print Assumptions C45_refuted.
Print Assumptions C46_first.
Print Assumptions C46_refuted.
Print Assumptions C64_partial.
Print Assumptions C64_refuted.
