(** * Sums along the sides of the leaves of a paving made by bisections (used for C100) *)
From Coq Require Import Reals Lra Lia Bool List Arith NArith Permutation.
Import ListNotations.
From Verif Require Import Itv Static Sivia Paving PropsPaving Degree.
Open Scope R_scope.

(** ** Sums *)
Fixpoint fsum {A} (g : A -> R) (l : list A) : R := match l with [] => 0 | a :: l => g a + fsum g l end.
Lemma fsum_app {A} (g : A -> R) l m : fsum g (l ++ m) = fsum g l + fsum g m.
Proof. induction l; cbn; lra. Qed.
Lemma fsum_ext {A} (g h : A -> R) l : (forall a, List.In a l -> g a = h a) -> fsum g l = fsum h l.
Proof. induction l; cbn; intros H; auto. rewrite H, IHl by auto. auto. Qed.
Lemma fsum_zero {A} (g : A -> R) l : (forall a, List.In a l -> g a = 0) -> fsum g l = 0.
Proof. induction l; cbn; intros H; auto. rewrite H, IHl by auto. lra. Qed.
Lemma fsum_plus {A} (g h : A -> R) l : fsum (fun a => g a + h a) l = fsum g l + fsum h l.
Proof. induction l; cbn; lra. Qed.
Lemma fsum_scal {A} k (g : A -> R) l : fsum (fun a => k * g a) l = k * fsum g l.
Proof. induction l; cbn; lra. Qed.
Lemma fsum_perm {A} (g : A -> R) l m : Permutation l m -> fsum g l = fsum g m.
Proof. induction 1; cbn; lra. Qed.
Lemma fsum_filter {A} (g : A -> R) (P : A -> bool) l : fsum g l = fsum g (filter P l) + fsum g (filter (fun a => negb (P a)) l).
Proof. induction l; cbn; [lra|]. destruct (P a); cbn; lra. Qed.
Lemma fsum_filter0 {A} (g : A -> R) (P : A -> bool) l : (forall a, List.In a l -> P a = false -> g a = 0) -> fsum g (filter P l) = fsum g l.
Proof. induction l; cbn; intros H; auto. destruct (P a) eqn:E; cbn; rewrite IHl by auto; auto. rewrite (H a) by auto. lra. Qed.
Lemma fsum_map {A B} (g : B -> R) (h : A -> B) l : fsum g (map h l) = fsum (fun a => g (h a)) l.
Proof. induction l; cbn; auto. rewrite IHl. auto. Qed.
Lemma fsum_flat {A B} (g : B -> R) (h : A -> list B) l : fsum g (flat_map h l) = fsum (fun a => fsum g (h a)) l.
Proof. induction l; cbn; auto. rewrite fsum_app, IHl. auto. Qed.
Lemma fsum_swap {A B} (g : A -> B -> R) l m : fsum (fun a => fsum (g a) m) l = fsum (fun b => fsum (fun a => g a b) l) m.
Proof.
  induction l; cbn; [symmetry; apply fsum_zero; auto|]. rewrite IHl, <- fsum_plus. auto.
Qed.
Lemma fsum_anti {A} (g : A -> A -> R) l : (forall a b, List.In a l -> List.In b l -> g a b = - g b a) -> fsum (fun a => fsum (g a) l) l = 0.
Proof.
  intros H. assert (fsum (fun a => fsum (g a) l) l = - fsum (fun a => fsum (g a) l) l); [|lra].
  rewrite (fsum_swap g) at 1.
  transitivity (-1 * fsum (fun a => fsum (g a) l) l); [|lra]. rewrite <- fsum_scal. apply fsum_ext. intros b Hb.
  rewrite <- fsum_scal. apply fsum_ext. intros a Ha. rewrite H by auto. lra.
Qed.
(** a sum is zero when it is zero on each class *)
Lemma fsum_classes {A K} (dec : forall a b : K, {a = b} + {a <> b}) (key : A -> K) (g : A -> R) :
  forall l, (forall k, fsum g (filter (fun a => if dec (key a) k then true else false) l) = 0) -> fsum g l = 0.
Proof.
  intros l. remember (length l) as n eqn:En. assert (length l <= n)%nat as Ln by lia. clear En. revert l Ln. induction n as [|n IH]; intros l Ln H.
  - destruct l; [reflexivity|cbn in Ln; lia].
  - destruct l as [|a l]; [reflexivity|]. set (P := fun b => if dec (key b) (key a) then true else false).
    rewrite (fsum_filter g P (a :: l)). unfold P at 1. rewrite H. rewrite Rplus_0_l. apply IH.
    + cbn [filter]. unfold P at 1. destruct (dec (key a) (key a)); [|contradiction]. cbn [negb]. cbn in Ln.
      assert (length (filter (fun b => negb (P b)) l) <= length l)%nat; [|lia]. clear. induction l; cbn; [lia|]. destruct (negb _); cbn; lia.
    + intros k. destruct (dec (key a) k) as [E|E].
      * apply fsum_zero. intros b Hb. apply filter_In in Hb. destruct Hb as [Hb Hk]. apply filter_In in Hb. destruct Hb as [_ Hb].
        unfold P in Hb. destruct (dec (key b) (key a)); [discriminate|]. destruct (dec (key b) k); [congruence|discriminate].
      * rewrite <- (H k). f_equal. generalize (a :: l) as m. induction m as [|b m IHm]; auto. cbn [filter]. unfold P at 1.
        destruct (dec (key b) (key a)) as [E1|E1]; cbn [negb filter].
        -- destruct (dec (key b) k) as [E2|]; [congruence|]. auto.
        -- destruct (dec (key b) k); rewrite IHm; auto.
Qed.

(** ** Leaves *)
Definition lbR (i : itv) : R := match i with Itv (Some a) _ => a | _ => 0 end.
Definition ubR (i : itv) : R := match i with Itv _ (Some b) => b | _ => 0 end.
Definition X0 (c : cell) : R := lbR (comp 0 (c_box c)).
Definition X1 (c : cell) : R := ubR (comp 0 (c_box c)).
Definition Y0 (c : cell) : R := lbR (comp 1 (c_box c)).
Definition Y1 (c : cell) : R := ubR (comp 1 (c_box c)).
(** a bounded two-dimensional box that is not flat *)
Definition rectangular (c : cell) : Prop :=
  c_box c = [Itv (Some (X0 c)) (Some (X1 c)); Itv (Some (Y0 c)) (Some (Y1 c))] /\ X0 c < X1 c /\ Y0 c < Y1 c.
(** each node that is not a leaf is cut in two parts *)
Fixpoint tiled (p : pav) : Prop :=
  rectangular (p_cell p) /\
  match p with
  | Leaf _ => True
  | Node c p1 p2 =>
      tiled p1 /\ tiled p2 /\
      let a := p_cell p1 in let b := p_cell p2 in
      (X0 a = X0 c /\ X1 a = X0 b /\ X1 b = X1 c /\ Y0 a = Y0 c /\ Y1 a = Y1 c /\ Y0 b = Y0 c /\ Y1 b = Y1 c \/
       Y0 a = Y0 c /\ Y1 a = Y0 b /\ Y1 b = Y1 c /\ X0 a = X0 c /\ X1 a = X1 c /\ X0 b = X0 c /\ X1 b = X1 c)
  end.
Lemma tiled_rect p : tiled p -> rectangular (p_cell p).
Proof. destruct p; intros []; auto. Qed.
Lemma tiled_leaf p : tiled p -> forall c, List.In c (leaves p) ->
  rectangular c /\ X0 (p_cell p) <= X0 c /\ X1 c <= X1 (p_cell p) /\ Y0 (p_cell p) <= Y0 c /\ Y1 c <= Y1 (p_cell p).
Proof.
  induction p as [d|d p1 IH1 p2 IH2]; intros T c Hc.
  - destruct T as [T _]. destruct Hc as [<-|[]]. cbn in *. split; auto. lra.
  - destruct T as (Rd & T1 & T2 & S). cbn in Rd, S. pose proof (tiled_rect _ T1) as (_ & ? & ?). pose proof (tiled_rect _ T2) as (_ & ? & ?).
    cbn [leaves] in Hc. apply in_app_or in Hc. cbn [p_cell]. destruct Hc as [Hc|Hc]; [destruct (IH1 T1 c Hc) as (Rc & B)|destruct (IH2 T2 c Hc) as (Rc & B)]; (split; [auto|]); destruct S as [S|S]; lra.
Qed.
(** interiors that do not meet *)
Definition apart (a b : cell) : Prop := X1 a <= X0 b \/ X1 b <= X0 a \/ Y1 a <= Y0 b \/ Y1 b <= Y0 a.
Lemma apart_sym a b : apart a b -> apart b a. Proof. unfold apart. lra. Qed.
Lemma tiled_apart p : tiled p -> NoDup (map c_addr (leaves p)) -> forall a b, List.In a (leaves p) -> List.In b (leaves p) -> a <> b -> apart a b.
Proof.
  induction p as [d|d p1 IH1 p2 IH2]; intros T ND a b Ha Hb Ne.
  - destruct Ha as [<-|[]], Hb as [<-|[]]. congruence.
  - destruct T as (Rd & T1 & T2 & S). cbn [leaves] in *. rewrite map_app in ND. apply in_app_or in Ha. apply in_app_or in Hb.
    pose proof (NoDup_app_l _ _ ND). pose proof (NoDup_app_r _ _ ND).
    destruct Ha as [Ha|Ha], Hb as [Hb|Hb]; [apply IH1; auto| | |apply IH2; auto].
    + destruct (tiled_leaf _ T1 a Ha) as (_ & A). destruct (tiled_leaf _ T2 b Hb) as (_ & B). unfold apart. cbn in S. destruct S; lra.
    + destruct (tiled_leaf _ T2 a Ha) as (_ & A). destruct (tiled_leaf _ T1 b Hb) as (_ & B). unfold apart. cbn in S. destruct S; lra.
Qed.

(** ** Increments along the sides *)
Definition inc (G : R -> R) (u v : R) : R := if Rlt_dec u v then G v - G u else 0.
Lemma inc_split G c d u m v : c < d -> u < m -> m < v ->
  inc G (Rmax c u) (Rmin d m) + inc G (Rmax c m) (Rmin d v) = inc G (Rmax c u) (Rmin d v).
Proof.
  intros H1 H2 H3. unfold inc, Rmax, Rmin.
  repeat match goal with |- context [Rle_dec ?a ?b] => destruct (Rle_dec a b) | |- context [Rlt_dec ?a ?b] => destruct (Rlt_dec a b) end; try lra;
    repeat match goal with H : ?a <= ?b |- context [G ?a] => first [assert (a = b) as -> by lra; lra|fail 1] end.
Qed.
Definition on {A B} (d : {A} + {B}) (r : R) : R := if d then r else 0.
(** [a] is on the right of the abscissa [m], or on its left *)
Definition rgt (l h m : R) (r : R) : R := if Rle_dec l m then if Rlt_dec m h then r else 0 else 0.
Definition lft (l h m : R) (r : R) : R := if Rlt_dec l m then if Rle_dec m h then r else 0 else 0.
Lemma chain_x (near : R -> R -> R -> R -> R) : near = rgt \/ near = lft -> forall (G : R -> R) be c d, c < d -> forall p, tiled p ->
  fsum (fun j => near (X0 j) (X1 j) be (inc G (Rmax c (Y0 j)) (Rmin d (Y1 j)))) (leaves p) =
  near (X0 (p_cell p)) (X1 (p_cell p)) be (inc G (Rmax c (Y0 (p_cell p))) (Rmin d (Y1 (p_cell p)))).
Proof.
  intros Hn G be c d Hcd. induction p as [e|e p1 IH1 p2 IH2]; intros T; cbn [leaves p_cell]; [cbn; lra|].
  destruct T as (Re & T1 & T2 & S). rewrite fsum_app, IH1, IH2 by auto. cbn in S, Re.
  pose proof (tiled_rect _ T1) as (_ & ? & ?). pose proof (tiled_rect _ T2) as (_ & ? & ?).
  set (a := p_cell p1) in *. set (b := p_cell p2) in *.
  destruct S as [(E1 & E2 & E3 & E4 & E5 & E6 & E7)|(E1 & E2 & E3 & E4 & E5 & E6 & E7)].
  - rewrite E4, E5, E6, E7, <- E1, <- E3, E2. rewrite E2 in *. set (r := inc _ _ _). clearbody r.
    destruct Hn as [-> | ->]; unfold rgt, lft;
      repeat match goal with |- context [Rle_dec ?a ?b] => destruct (Rle_dec a b) | |- context [Rlt_dec ?a ?b] => destruct (Rlt_dec a b) end; lra.
  - rewrite E4, E5, E6, E7, <- E1, <- E3, <- E2. rewrite <- (inc_split G c d (Y0 a) (Y1 a) (Y1 b)) by (auto; lra).
    set (r := inc _ _ _). set (s := inc _ _ _). clearbody r s.
    destruct Hn as [-> | ->]; unfold rgt, lft;
      repeat match goal with |- context [Rle_dec ?a ?b] => destruct (Rle_dec a b) | |- context [Rlt_dec ?a ?b] => destruct (Rlt_dec a b) end; lra.
Qed.
Lemma chain_y (near : R -> R -> R -> R -> R) : near = rgt \/ near = lft -> forall (G : R -> R) be c d, c < d -> forall p, tiled p ->
  fsum (fun j => near (Y0 j) (Y1 j) be (inc G (Rmax c (X0 j)) (Rmin d (X1 j)))) (leaves p) =
  near (Y0 (p_cell p)) (Y1 (p_cell p)) be (inc G (Rmax c (X0 (p_cell p))) (Rmin d (X1 (p_cell p)))).
Proof.
  intros Hn G be c d Hcd. induction p as [e|e p1 IH1 p2 IH2]; intros T; cbn [leaves p_cell]; [cbn; lra|].
  destruct T as (Re & T1 & T2 & S). rewrite fsum_app, IH1, IH2 by auto. cbn in S, Re.
  pose proof (tiled_rect _ T1) as (_ & ? & ?). pose proof (tiled_rect _ T2) as (_ & ? & ?).
  set (a := p_cell p1) in *. set (b := p_cell p2) in *.
  destruct S as [(E1 & E2 & E3 & E4 & E5 & E6 & E7)|(E1 & E2 & E3 & E4 & E5 & E6 & E7)].
  - rewrite E4, E5, E6, E7, <- E1, <- E3, <- E2. rewrite <- (inc_split G c d (X0 a) (X1 a) (X1 b)) by (auto; lra).
    set (r := inc _ _ _). set (s := inc _ _ _). clearbody r s.
    destruct Hn as [-> | ->]; unfold rgt, lft;
      repeat match goal with |- context [Rle_dec ?a ?b] => destruct (Rle_dec a b) | |- context [Rlt_dec ?a ?b] => destruct (Rlt_dec a b) end; lra.
  - rewrite E4, E5, E6, E7, <- E1, <- E3, E2. rewrite E2 in *. set (r := inc _ _ _). clearbody r.
    destruct Hn as [-> | ->]; unfold rgt, lft;
      repeat match goal with |- context [Rle_dec ?a ?b] => destruct (Rle_dec a b) | |- context [Rlt_dec ?a ?b] => destruct (Rlt_dec a b) end; lra.
Qed.
(** the increment of [G] on the part of the border of [a] that [b] shares, counterclockwise around [a] *)
Definition kap (G : R -> R -> R) (a b : cell) : R :=
  rgt (X0 b) (X1 b) (X1 a) (inc (G (X1 a)) (Rmax (Y0 a) (Y0 b)) (Rmin (Y1 a) (Y1 b)))
  + -1 * lft (X0 b) (X1 b) (X0 a) (inc (G (X0 a)) (Rmax (Y0 a) (Y0 b)) (Rmin (Y1 a) (Y1 b)))
  + (-1 * rgt (Y0 b) (Y1 b) (Y1 a) (inc (fun x => G x (Y1 a)) (Rmax (X0 a) (X0 b)) (Rmin (X1 a) (X1 b)))
  + lft (Y0 b) (Y1 b) (Y0 a) (inc (fun x => G x (Y0 a)) (Rmax (X0 a) (X0 b)) (Rmin (X1 a) (X1 b)))).
Definition inside (c d : cell) : Prop := X0 d < X0 c /\ X1 c < X1 d /\ Y0 d < Y0 c /\ Y1 c < Y1 d.
Lemma kap_total G a p : tiled p -> rectangular a -> inside a (p_cell p) -> fsum (kap G a) (leaves p) = 0.
Proof.
  intros T (_ & Ra & Ra') (I1 & I2 & I3 & I4). unfold kap. rewrite !fsum_plus, !fsum_scal.
  rewrite (chain_x rgt) by auto. rewrite (chain_x lft) by auto. rewrite (chain_y rgt) by auto. rewrite (chain_y lft) by auto.
  rewrite !Rmax_left, !Rmin_left by lra. unfold rgt, lft, inc.
  repeat match goal with |- context [Rle_dec ?a ?b] => destruct (Rle_dec a b); try lra | |- context [Rlt_dec ?a ?b] => destruct (Rlt_dec a b); try lra end.
Qed.

(** ** The common part of two leaves *)
Definition ex0 (a b : cell) : R := Rmax (X0 a) (X0 b).
Definition ex1 (a b : cell) : R := Rmin (X1 a) (X1 b).
Definition ey0 (a b : cell) : R := Rmax (Y0 a) (Y0 b).
Definition ey1 (a b : cell) : R := Rmin (Y1 a) (Y1 b).
(** a common segment *)
Definition edge (a b : cell) : Prop := ex0 a b = ex1 a b /\ ey0 a b < ey1 a b \/ ex0 a b < ex1 a b /\ ey0 a b = ey1 a b.
Lemma edge_dec a b : {edge a b} + {~ edge a b}.
Proof.
  unfold edge. destruct (Req_EM_T (ex0 a b) (ex1 a b)), (Rlt_dec (ey0 a b) (ey1 a b)), (Rlt_dec (ex0 a b) (ex1 a b)), (Req_EM_T (ey0 a b) (ey1 a b)); try (left; lra); right; lra.
Qed.
Lemma edge_sym a b : edge a b -> edge b a.
Proof. unfold edge, ex0, ex1, ey0, ey1. rewrite (Rmax_comm (X0 b)), (Rmax_comm (Y0 b)), (Rmin_comm (X1 b)), (Rmin_comm (Y1 b)). auto. Qed.
(** orientation: the upper end comes last when one goes counterclockwise around [a] *)
Definition fwd (a b : cell) : Prop := ex0 a b = ex1 a b /\ X1 a = X0 b \/ ey0 a b = ey1 a b /\ Y0 a = Y1 b.
Lemma fwd_dec a b : {fwd a b} + {~ fwd a b}.
Proof.
  unfold fwd. destruct (Req_EM_T (ex0 a b) (ex1 a b)), (Req_EM_T (X1 a) (X0 b)), (Req_EM_T (ey0 a b) (ey1 a b)), (Req_EM_T (Y0 a) (Y1 b)); try (left; lra); right; lra.
Qed.
Ltac mmax := unfold Rmax, Rmin in *; repeat match goal with
  | |- context [Rle_dec ?a ?b] => destruct (Rle_dec a b)
  | H : context [Rle_dec ?a ?b] |- _ => destruct (Rle_dec a b) end.
(** the four sides *)
Inductive side : cell -> cell -> Prop :=
| s_right a b : X1 a = X0 b -> ey0 a b < ey1 a b -> side a b
| s_left a b : X0 a = X1 b -> ey0 a b < ey1 a b -> side a b
| s_top a b : Y1 a = Y0 b -> ex0 a b < ex1 a b -> side a b
| s_bottom a b : Y0 a = Y1 b -> ex0 a b < ex1 a b -> side a b.
Lemma edge_side a b : rectangular a -> rectangular b -> edge a b -> side a b.
Proof.
  intros (_ & A1 & A2) (_ & B1 & B2) E. unfold edge in E. destruct E as [[E1 E2]|[E1 E2]].
  - assert (X1 a = X0 b \/ X0 a = X1 b) as [H|H].
    { unfold ex0, ex1 in E1. mmax; lra. }
    + apply s_right; auto.
    + apply s_left; auto.
  - assert (Y1 a = Y0 b \/ Y0 a = Y1 b) as [H|H].
    { unfold ey0, ey1 in E2. mmax; lra. }
    + apply s_top; auto.
    + apply s_bottom; auto.
Qed.
Lemma kap_edge G a b : rectangular a -> rectangular b -> apart a b -> edge a b ->
  kap G a b = (if fwd_dec a b then 1 else -1) * (G (ex1 a b) (ey1 a b) - G (ex0 a b) (ey0 a b)).
Proof.
  intros Ra Rb _ E. assert (H := edge_side a b Ra Rb E). destruct Ra as (_ & A1 & A2), Rb as (_ & B1 & B2).
  unfold kap. fold (ex0 a b) (ex1 a b) (ey0 a b) (ey1 a b).
  destruct H as [a b S L|a b S L|a b S L|a b S L].
  - assert (ex0 a b = X1 a) as E0 by (unfold ex0; mmax; lra). assert (ex1 a b = X1 a) as E1 by (unfold ex1; mmax; lra).
    unfold inc, rgt, lft. rewrite E0, E1.
    destruct (fwd_dec a b) as [f|f]; [|exfalso; apply f; left; lra].
    repeat match goal with |- context [Rle_dec ?a ?b] => destruct (Rle_dec a b); try lra | |- context [Rlt_dec ?a ?b] => destruct (Rlt_dec a b); try lra end.
  - assert (ex0 a b = X0 a) as E0 by (unfold ex0; mmax; lra). assert (ex1 a b = X0 a) as E1 by (unfold ex1; mmax; lra).
    unfold inc, rgt, lft. rewrite E0, E1.
    destruct (fwd_dec a b) as [f|f]; [exfalso; destruct f; lra|].
    repeat match goal with |- context [Rle_dec ?a ?b] => destruct (Rle_dec a b); try lra | |- context [Rlt_dec ?a ?b] => destruct (Rlt_dec a b); try lra end.
  - assert (ey0 a b = Y1 a) as E0 by (unfold ey0; mmax; lra). assert (ey1 a b = Y1 a) as E1 by (unfold ey1; mmax; lra).
    unfold inc, rgt, lft. rewrite E0, E1.
    destruct (fwd_dec a b) as [f|f]; [exfalso; destruct f; lra|].
    repeat match goal with |- context [Rle_dec ?a ?b] => destruct (Rle_dec a b); try lra | |- context [Rlt_dec ?a ?b] => destruct (Rlt_dec a b); try lra end.
  - assert (ey0 a b = Y0 a) as E0 by (unfold ey0; mmax; lra). assert (ey1 a b = Y0 a) as E1 by (unfold ey1; mmax; lra).
    unfold inc, rgt, lft. rewrite E0, E1.
    destruct (fwd_dec a b) as [f|f]; [|exfalso; apply f; right; lra].
    repeat match goal with |- context [Rle_dec ?a ?b] => destruct (Rle_dec a b); try lra | |- context [Rlt_dec ?a ?b] => destruct (Rlt_dec a b); try lra end.
Qed.
Lemma kap_none G a b : rectangular a -> rectangular b -> apart a b -> ~ edge a b -> kap G a b = 0.
Proof.
  intros (_ & A1 & A2) (_ & B1 & B2) D N. unfold kap. fold (ex0 a b) (ex1 a b) (ey0 a b) (ey1 a b). unfold inc.
  assert (forall r, ey0 a b < ey1 a b -> rgt (X0 b) (X1 b) (X1 a) r = 0) as Z1.
  { intros r L. unfold rgt. destruct (Rle_dec (X0 b) (X1 a)); auto. destruct (Rlt_dec (X1 a) (X1 b)); auto. exfalso. apply N. left. split; auto.
    unfold ey0, ey1 in L. unfold apart in D. unfold ex0, ex1. mmax; lra. }
  assert (forall r, ey0 a b < ey1 a b -> lft (X0 b) (X1 b) (X0 a) r = 0) as Z2.
  { intros r L. unfold lft. destruct (Rlt_dec (X0 b) (X0 a)); auto. destruct (Rle_dec (X0 a) (X1 b)); auto. exfalso. apply N. left. split; auto.
    unfold ey0, ey1 in L. unfold apart in D. unfold ex0, ex1. mmax; lra. }
  assert (forall r, ex0 a b < ex1 a b -> rgt (Y0 b) (Y1 b) (Y1 a) r = 0) as Z3.
  { intros r L. unfold rgt. destruct (Rle_dec (Y0 b) (Y1 a)); auto. destruct (Rlt_dec (Y1 a) (Y1 b)); auto. exfalso. apply N. right. split; auto.
    unfold ex0, ex1 in L. unfold apart in D. unfold ey0, ey1. mmax; lra. }
  assert (forall r, ex0 a b < ex1 a b -> lft (Y0 b) (Y1 b) (Y0 a) r = 0) as Z4.
  { intros r L. unfold lft. destruct (Rlt_dec (Y0 b) (Y0 a)); auto. destruct (Rle_dec (Y0 a) (Y1 b)); auto. exfalso. apply N. right. split; auto.
    unfold ex0, ex1 in L. unfold apart in D. unfold ey0, ey1. mmax; lra. }
  assert (forall l h m, rgt l h m 0 = 0) as Z5. { intros. unfold rgt. destruct (Rle_dec l m); auto. destruct (Rlt_dec m h); auto. }
  assert (forall l h m, lft l h m 0 = 0) as Z6. { intros. unfold lft. destruct (Rlt_dec l m); auto. destruct (Rle_dec m h); auto. }
  destruct (Rlt_dec (ey0 a b) (ey1 a b)), (Rlt_dec (ex0 a b) (ex1 a b)); rewrite ?Z1, ?Z2, ?Z3, ?Z4, ?Z5, ?Z6 by auto; lra.
Qed.
Lemma kap_self G a : kap G a a = 0.
Proof.
  unfold kap, rgt, lft. repeat match goal with |- context [Rle_dec ?a ?b] => destruct (Rle_dec a b); try lra | |- context [Rlt_dec ?a ?b] => destruct (Rlt_dec a b); try lra end.
Qed.
