(** * C42, C43, C63: copies of pavings, refutations, examples *)

From Coq Require Import Reals Lra Lia Bool List Arith NArith.
Import ListNotations.
From Verif Require Import Itv PropsDyn2 Tube TubeFacts Static PropsStatic Sivia PropsSivia PropsSiviaTerm PropsSiviaEx Concrete Paving PropsPaving PropsPaving2 PropsPaving3.
Open Scope R_scope.

(** ** A copy whose original has been deleted *)
Lemma copy_spec : forall p next, (next < snd (copy p next))%nat /\
  (forall c, List.In c (cells (fst (copy p next))) -> (next <= c_addr c < snd (copy p next))%nat /\ exists d, List.In d (cells p) /\ c_root c = c_root d) /\
  (forall d, List.In d (leaves p) -> exists c, List.In c (leaves (fst (copy p next))) /\ c_box c = c_box d /\ c_val c = c_val d).
Proof.
  induction p as [e|e p1 IH1 p2 IH2]; intros next.
  - cbn. split; [lia|]. split.
    + intros c [<-|[]]. cbn. split; [lia|]. exists e. auto.
    + intros d [<-|[]]. eexists. split; [left; reflexivity|]. auto.
  - cbn [copy]. destruct (IH1 (S next)) as (L1 & C1 & D1). destruct (copy p1 (S next)) as [q1 n1]. cbn [fst snd] in *.
    destruct (IH2 n1) as (L2 & C2 & D2). destruct (copy p2 n1) as [q2 n2]. cbn [fst snd cells leaves] in *.
    split; [lia|]. split.
    + intros c [<-|H].
      * cbn. split; [lia|]. exists e. auto.
      * apply in_app_or in H. destruct H as [H|H]; [destruct (C1 c H) as (K & d & D & E)|destruct (C2 c H) as (K & d & D & E)];
          (split; [lia|]); exists d; split; auto; right; apply in_or_app; auto.
    + intros d H. apply in_app_or in H. destruct H as [H|H]; [destruct (D1 d H) as (c & D & E)|destruct (D2 d H) as (c & D & E)];
        exists c; split; auto; apply in_or_app; auto.
Qed.
Lemma find_addr a : forall p q, find_in a p = Some q -> exists c, List.In c (cells p) /\ c_addr c = a.
Proof.
  induction p as [e|e p1 IH1 p2 IH2]; intros q H; cbn in H.
  - destruct (Nat.eqb_spec (c_addr e) a); [|discriminate]. exists e. split; auto. left. auto.
  - destruct (Nat.eqb_spec (c_addr e) a); [exists e; split; auto; left; auto|].
    destruct (find_in a p1) as [r|] eqn:E1; [destruct (IH1 r eq_refl) as (c & C & E)|destruct (IH2 q H) as (c & C & E)];
      exists c; split; auto; right; apply in_or_app; auto.
Qed.
(** The copy of any paving refers to the root of the original: the function reads a dangling pointer when the original
    does not exist any more. *)
Theorem C42_dangling : forall p next val fuel f, paving_ok p -> (forall c, List.In c (cells p) -> (c_addr c < next)%nat) -> (exists d, matching val p d) ->
  get_connected_subsets [fst (copy p next)] (fst (copy p next)) val fuel f = None.
Proof.
  intros p next val fuel f OK Hn (d & Hd & M). destruct (copy_spec p next) as (_ & C & D). set (q := fst (copy p next)) in *.
  destruct (D d Hd) as (c & Hc & _ & Ev). unfold get_connected_subsets.
  assert (Mc : matching val q c) by (split; auto; rewrite Ev; auto).
  destruct (get_first_leaf val (reset_flags q f) q) as [e|] eqn:E.
  2:{ pose proof (first_leaf_none _ _ _ _ E Mc) as K. rewrite reset_leaf in K by auto. discriminate. }
  apply first_leaf_some in E as [[He _] _].
  destruct fuel as [|fuel]; cbn [subsets_loop].
  all: destruct (get_first_leaf val (reset_flags q f) q) as [e'|] eqn:E'; auto.
  all: try (pose proof (first_leaf_none _ _ _ _ E' Mc) as K; rewrite reset_leaf in K by auto; discriminate).
  apply first_leaf_some in E' as [[He' _] _]. cbn [subset_loop].
  unfold get_neighbours. destruct (C e') as (_ & r & Hr & Er); [apply leaves_cells; auto|].
  destruct (lookup (c_root e') [q]) as [z|] eqn:El; auto. exfalso. cbn in El. destruct (find_in (c_root e') q) as [y|] eqn:Ef; [|discriminate].
  apply find_addr in Ef. destruct Ef as (k & Hk & Ek). destruct (C k Hk) as (Lk & _).
  rewrite Er, (po_root _ OK r Hr) in Ek. pose proof (Hn (p_cell p) (cell_in p)). lia.
Qed.

(** ** A copy whose original exists *)
Definition bl : box := [I2 0 1; I2 0 1].
Definition br : box := [I2 1 2; I2 0 1].
Definition bw : box := [I2 0 2; I2 0 1].
Definition p_orig : pav := Node (mkC 0 bw V_UNKNOWN 0) (Leaf (mkC 1 bl V_UNKNOWN 0)) (Leaf (mkC 2 br V_UNKNOWN 0)).
Definition p_copy : pav := fst (copy p_orig 3).
Definition c4 : cell := mkC 4 bl V_UNKNOWN 0.
Definition c5 : cell := mkC 5 br V_UNKNOWN 0.
Lemma wf_bw x : List.In x [bl; br; bw] -> Forall wf x.
Proof. intros [<-|[<-|[<-|[]]]]; boxt. Qed.
Lemma meet_pair x y : List.In x [bl; br; bw] -> List.In y [bl; br; bw] -> b_is_empty (b_inter x y) = false.
Proof.
  intros Hx Hy. apply point_inter with [1; 0].
  - destruct Hx as [<-|[<-|[<-|[]]]]; boxt.
  - destruct Hy as [<-|[<-|[<-|[]]]]; boxt.
Qed.
Lemma p_orig_ok : paving_ok p_orig.
Proof.
  constructor.
  - cbn. repeat constructor; cbn; intuition lia.
  - cbn. intros c [<-|[<-|[<-|[]]]]; auto.
  - cbn. repeat split; boxt; intros v; cbn; lra.
  - cbn. intros c [<-|[<-|[<-|[]]]]; (split; [|reflexivity]); apply wf_bw; cbn; auto.
Qed.
Lemma inter_orig x : List.In x [bl; br; bw] -> intersecting V_UNKNOWN x p_orig = [mkC 1 bl V_UNKNOWN 0; mkC 2 br V_UNKNOWN 0].
Proof.
  intros Hx. unfold p_orig. cbn [intersecting p_cell c_box].
  rewrite !meet_pair by (auto; cbn; auto). reflexivity.
Qed.
Lemma copy_run fuel : (3 <= fuel)%nat -> get_connected_subsets [p_orig; p_copy] p_copy V_UNKNOWN fuel (fun _ => false) =
  Some [[c4; mkC 1 bl V_UNKNOWN 0; mkC 2 br V_UNKNOWN 0]; [c5]].
Proof.
  intros L. destruct fuel as [|[|[|fuel]]]; try lia. unfold get_connected_subsets.
  assert (Nb : forall f e, c_root e = 0%nat -> List.In (c_box e) [bl; br; bw] -> get_neighbours [p_orig; p_copy] V_UNKNOWN f e =
    Some (filter (fun c => negb (Nat.eqb (c_addr c) (c_addr e)) && meets (c_val c) V_UNKNOWN && negb (f (c_addr c))) [mkC 1 bl V_UNKNOWN 0; mkC 2 br V_UNKNOWN 0])).
  { intros f e Er Hb. unfold get_neighbours. rewrite Er. replace (lookup 0 [p_orig; p_copy]) with (Some p_orig) by reflexivity.
    rewrite inter_orig by auto. destruct Hb as [<-|[<-|[<-|[]]]]; reflexivity. }
  change (reset_flags p_copy (fun _ => false)) with (fset 5 false (fset 4 false (fset 3 false (fun _ => false)))).
  set (f0 := fset 5 false (fset 4 false (fset 3 false (fun _ => false)))).
  cbn [subsets_loop]. replace (get_first_leaf V_UNKNOWN f0 p_copy) with (Some c4) by reflexivity.
  cbn [subset_loop]. rewrite Nb by (cbn; auto). cbn [c4 c_addr filter Nat.eqb negb andb c_val app fold_left].
  set (f1 := fset 4 true f0). replace (meets V_UNKNOWN V_UNKNOWN) with true by reflexivity.
  replace (f1 1%nat) with false by reflexivity. replace (f1 2%nat) with false by reflexivity. cbn [negb andb app fold_left c_addr].
  rewrite Nb by (cbn; auto). cbn [c_addr filter Nat.eqb negb andb c_val app fold_left].
  set (f2 := fset 1 true (fset 2 true (fset 1 true f1))). replace (meets V_UNKNOWN V_UNKNOWN) with true by reflexivity.
  replace (f2 2%nat) with true by reflexivity. cbn [negb andb app fold_left].
  rewrite Nb by (cbn; auto). cbn [c_addr filter Nat.eqb negb andb c_val app fold_left].
  set (f3 := fset 2 true f2). replace (meets V_UNKNOWN V_UNKNOWN) with true by reflexivity.
  replace (f3 1%nat) with true by reflexivity. cbn [negb andb app fold_left].
  destruct fuel; cbn [subset_loop].
  all: replace (get_first_leaf V_UNKNOWN f3 p_copy) with (Some c5) by reflexivity.
  all: cbn [subset_loop]; rewrite Nb by (cbn; auto); cbn [c5 c_addr filter Nat.eqb negb andb c_val app fold_left].
  all: set (f4 := fset 5 true f3); replace (meets V_UNKNOWN V_UNKNOWN) with true by reflexivity;
       replace (f4 1%nat) with true by reflexivity; replace (f4 2%nat) with true by reflexivity; cbn [negb andb app fold_left].
  all: cbn [subset_loop subsets_loop]; replace (get_first_leaf V_UNKNOWN f4 p_copy) with (@None cell) by reflexivity; reflexivity.
Qed.
Theorem C42_refuted : exists p next val, paving_ok p /\ (forall c, List.In c (cells p) -> (c_addr c < next)%nat) /\
  let q := fst (copy p next) in
  forall fuel, (length (leaves q) < fuel)%nat -> exists res, get_connected_subsets [p; q] q val fuel (fun _ => false) = Some res /\
    (exists s a b, List.In s res /\ List.In a s /\ linked val q a b /\ ~ List.In b s) /\
    (exists c, List.In c (concat res) /\ ~ List.In c (leaves q)).
Proof.
  exists p_orig, 3%nat, V_UNKNOWN. split; [apply p_orig_ok|]. split; [cbn; intros c [<-|[<-|[<-|[]]]]; cbn; lia|].
  cbv zeta. intros fuel L. change (fst (copy p_orig 3)) with p_copy in *. cbn in L. eexists. split; [apply copy_run; lia|]. split.
  - eexists. exists c4, c5. split; [left; reflexivity|]. split; [left; reflexivity|]. split.
    + apply link_step with c4.
      * constructor. split; [cbn; auto|discriminate].
      * split; [cbn; auto|discriminate].
      * exists [1; 0]. split; cbn; boxt.
    + cbn. intros [H|[H|[H|[]]]]; apply (f_equal c_addr) in H; discriminate.
  - exists (mkC 1 bl V_UNKNOWN 0). split; [cbn; auto|]. cbn. intros [H|[H|[]]]; apply (f_equal c_addr) in H; discriminate.
Qed.

(** ** Examples *)
Lemma lf_bounded r : 0 < r < 1 -> bis_bounded (lf r).
Proof.
  intros Hr x x1 x2 B E. unfold lf in E. destruct (_ && _)%bool; [|discriminate]. injection E; intros <- <-.
  assert (G : forall f, (forall i, bounded i -> bounded (f i)) -> forall k x, Forall bounded x -> Forall bounded (upd k f x)).
  { intros f Hf. induction k; intros [|i y] F; cbn; auto; inversion F; constructor; auto. }
  split; apply G; auto; intros i (a & b & -> & L); cbn; pose proof (mid_between r a b Hr L).
  - exists a, (a + r * (b - a)). split; auto. lra.
  - exists (a + r * (b - a)), b. split; auto. lra.
Qed.
Lemma lf49 : 0 < 49 / 100 < 1. Proof. lra. Qed.

(** the paving of the refutation, not copied: the two leaves form one subset *)
Example C42_ex : exists res, get_connected_subsets [p_orig] p_orig V_UNKNOWN 2 (fun _ => true) = Some res /\
  forall s, List.In s res -> List.In (mkC 1 bl V_UNKNOWN 0) s -> List.In (mkC 2 br V_UNKNOWN 0) s.
Proof.
  destruct (C42 [p_orig] p_orig V_UNKNOWN 2 (fun _ => true) p_orig_ok eq_refl (Nat.le_refl 2)) as (res & E & _ & _ & H & _).
  exists res. split; auto. intros s Hs Ha. apply (H s _ _ Hs Ha). apply link_step with (mkC 1 bl V_UNKNOWN 0).
  - constructor. split; [cbn; auto|discriminate].
  - split; [cbn; auto|discriminate].
  - exists [1; 0]. split; cbn; boxt.
Qed.
(** a paving built by calls: bisection of the root and of a leaf, values of leaves *)
Example C42_built_ex : exists p n, prun (lf (49 / 100)) [PBisect 0; PSet 1 V_OUT; PBisect 2; PReset 2 V_IN] (new_paving 0 bw V_UNKNOWN, 1%nat) = Some (p, n) /\
  paving_ok p /\ map c_val (leaves p) = [V_OUT; V_IN].
Proof.
  assert (Ex : exists p n, prun (lf (49 / 100)) [PBisect 0; PSet 1 V_OUT; PBisect 2; PReset 2 V_IN] (new_paving 0 bw V_UNKNOWN, 1%nat) = Some (p, n) /\
    map c_val (leaves p) = [V_OUT; V_IN]).
  { cbn [prun pstep fst snd new_paving bisect_at c_addr Nat.eqb]. unfold bisect_leaf at 1. cbn [c_box].
    destruct (lf (49 / 100) bw) as [[x1 x2]|] eqn:E1.
    2:{ exfalso. revert E1. apply (sh_some _ _ (lf_shrinks _ lf49)) with (I2 0 2); [boxt; exists 0; eexists; split; try reflexivity; lra|left; auto|cbn; lra]. }
    assert (B : Forall bounded x2) by (eapply (lf_bounded _ lf49); [|eassumption]; boxt; exists 0; eexists; split; try reflexivity; lra).
    assert (W2 : exists i, List.In i x2 /\ 0 < width i).
    { unfold lf in E1. destruct (_ && _)%bool; [|discriminate]. injection E1; intros <- _. cbn. rewrite Rleb_t by lra.
      exists (Itv (Some (0 + 49 / 100 * (2 - 0))) (Some 2)). split; [left; auto|cbn; lra]. }
    destruct W2 as (i & I1 & I2').
    cbn [set_at c_addr Nat.eqb with_val bisect_at fst snd p_cell]. unfold bisect_leaf at 1. cbn [c_box].
    destruct (lf (49 / 100) x2) as [[x3 x4]|] eqn:E2.
    2:{ exfalso. revert E2. apply (sh_some _ _ (lf_shrinks _ lf49)) with i; auto. }
    eexists. eexists. split; reflexivity. }
  destruct Ex as (p & n & E & V). exists p, n. split; auto. split; auto.
  eapply C42_built with (a := 0%nat); [apply (lf_ok _ lf49)| | |exact E]; [apply wf_bw; cbn; auto|reflexivity].
Qed.
(** The function x1 + x2 in [0,1]; the hypotheses of C63_ends, C63_fun and C42_sivia hold together. *)
Definition f_first (q : list R) : list R := match q with v :: _ => [v] | [] => [0] end.
Definition F_first (x : box) : box := match x with i :: _ => [i] | [] => [pt 0] end.
Example C63_fun_ex : exists fuel p, sivia_paving (test_fun F_first [I2 1 3]) (lf (49 / 100)) (1 / 10) bw fuel = Some p /\
  classified (fun q => inb (f_first q) [I2 1 3]) (1 / 10) bw (leaves p) /\ paving_ok p.
Proof.
  destruct (C63_ends (test_fun F_first [I2 1 3]) (lf (49 / 100)) _ (1 / 10) bw (lf_ok _ lf49) (lf_shrinks _ lf49) (lf_bounded _ lf49)) as (fuel & p & E);
    [lra|boxt; exists 0; eexists; split; try reflexivity; lra|].
  exists fuel, p. split; auto. split.
  - eapply C63_fun with (F := F_first) (bis := lf (49 / 100)); [| |apply (lf_ok _ lf49)|apply wf_bw; cbn; auto|exact E].
    + intros x q H. destruct H; cbn; constructor; auto; try constructor; cbn; lra.
    + intros [|]; reflexivity.
  - eapply C42_sivia; [apply (lf_ok _ lf49)|apply wf_bw; cbn; auto|reflexivity|exact E].
Qed.
Example C63_ctc_ex : exists fuel p, sivia_paving (test_ctc (cut disk_box)) (lf (49 / 100)) (1 / 10) square fuel = Some p /\
  classified (fun q => inb q disk_box) (1 / 10) square (leaves p).
Proof.
  destruct (C63_ends (test_ctc (cut disk_box)) (lf (49 / 100)) _ (1 / 10) square (lf_ok _ lf49) (lf_shrinks _ lf49) (lf_bounded _ lf49)) as (fuel & p & E);
    [lra|apply square_bounded|].
  exists fuel, p. split; auto. eapply C63_ctc; [apply (cut_ok disk_box)|apply (lf_ok _ lf49)| |exact E]. unfold square. boxt.
Qed.
Lemma inb_dec : forall b q, inb q b \/ ~ inb q b.
Proof. intros b q. apply Classical_Prop.classic. Qed.
Example C63_sep_ex : exists fuel p, sivia_paving (test_sep (box_sep disk_box)) (lf (49 / 100)) (1 / 10) square fuel = Some p /\
  classified (fun q => inb q disk_box) (1 / 10) square (leaves p).
Proof.
  destruct (C63_ends (test_sep (box_sep disk_box)) (lf (49 / 100)) _ (1 / 10) square (lf_ok _ lf49) (lf_shrinks _ lf49) (lf_bounded _ lf49)) as (fuel & p & E);
    [lra|apply square_bounded|].
  exists fuel, p. split; auto. eapply C63_sep; [apply inb_dec|apply (box_sep_ok disk_box)|apply (lf_ok _ lf49)| |exact E]. unfold square. boxt.
Qed.

(** get_boxes *)
Definition p_mixed : pav := Node (mkC 0 bw V_UNKNOWN 0) (Leaf (mkC 1 bl V_IN 0)) (Leaf (mkC 2 br V_OUT 0)).
Example C43_default_ex : get_boxes (N.lor V_IN V_UNKNOWN) V_DEFAULT p_mixed = Some [bl].
Proof. reflexivity. Qed.
(** OUT is not the value of the root: OUT can be given as rejected value *)
Example C43_partial_ex : told V_IN V_OUT p_mixed /\ get_boxes V_IN V_OUT p_mixed = Some [bl].
Proof. split; [|reflexivity]. cbn. split; [|auto]. intros H. exfalso. apply H. reflexivity. Qed.
(** The documentation suggests to give the other values as rejected values: with a paving computed by SIVIAPaving, the boxes
    that are IN are not found. *)
Theorem C43_refuted : exists F y bis precision x fuel p c, sivia_paving (test_fun F y) bis precision x fuel = Some p /\ bis_ok bis /\
  matching V_IN p c /\ get_boxes V_IN (N.lor V_UNKNOWN V_OUT) p = Some [].
Proof.
  exists F_first, [I2 (1 / 2) 3], (lf (49 / 100)), (3 / 2), bw, 1%nat.
  assert (E : exists c x1 x2, sivia_paving (test_fun F_first [I2 (1 / 2) 3]) (lf (49 / 100)) (3 / 2) bw 1 =
    Some (Node c (Leaf (mkC 1 x1 V_UNKNOWN 0)) (Leaf (mkC 2 x2 V_IN 0)))).
  { unfold sivia_paving, lf, bw, I2. cbn [compute c_box]. unfold test_fun, b_is_subset, b_intersects. cbn. rdec. cbn. rdec. cbn. rdec. cbn.
 unfold with_val. cbn. eexists. eexists. eexists. reflexivity. }
  destruct E as (c & x1 & x2 & E). eexists. exists (mkC 2 x2 V_IN 0). split; [exact E|]. split; [apply (lf_ok _ lf49)|]. split.
  - split; [cbn; auto|discriminate].
  - eapply C43_sivia; [exact E|reflexivity|discriminate].
Qed.

Print Assumptions C42.
Print Assumptions C42_built.
Print Assumptions C42_sivia.
Print Assumptions C42_dangling.
Print Assumptions C42_refuted.
Print Assumptions C43_default.
Print Assumptions C43_partial.
Print Assumptions C43_sivia.
Print Assumptions C43_refuted.
Print Assumptions C63_ends.
Print Assumptions C63_ctc.
Print Assumptions C63_sep.
Print Assumptions C63_fun.
Print Assumptions C63_refuted.
