(** * Interval arithmetic as an abstract, inclusion-correct record

    IBEX's rounded interval arithmetic is an external dependency (not in /repo).  Theorems
    quantify over every [arith] satisfying [arith_ok]: any outward rounding is allowed. *)

From Coq Require Import Reals Lra Bool List.
From Verif Require Import Itv.
Open Scope R_scope.

(** Arithmetic operators of [ibex::Interval] used by codac ([+], [-], [*], unary minus).
    ibex::Interval, included by codac_Interval.h 15-20 *)
Record arith := {
  iadd : itv -> itv -> itv;
  isub : itv -> itv -> itv;
  imul : itv -> itv -> itv;
  ineg : itv -> itv
}.

(** the contract of these operators, ibex::Interval, included by codac_Interval.h 15-20 *)
Record arith_ok (A : arith) : Prop := {
  iadd_in : forall x y X Y, In x X -> In y Y -> In (x + y) (iadd A X Y);
  isub_in : forall x y X Y, In x X -> In y Y -> In (x - y) (isub A X Y);
  imul_in : forall x y X Y, In x X -> In y Y -> In (x * y) (imul A X Y);
  ineg_in : forall x X, In x X -> In (- x) (ineg A X);
  iadd_wf : forall X Y, wf X -> wf Y -> wf (iadd A X Y);
  isub_wf : forall X Y, wf X -> wf Y -> wf (isub A X Y);
  imul_wf : forall X Y, wf X -> wf Y -> wf (imul A X Y);
  ineg_wf : forall X, wf X -> wf (ineg A X);
  iadd_emp : forall X Y, X = Emp \/ Y = Emp -> iadd A X Y = Emp;
  isub_emp : forall X Y, X = Emp \/ Y = Emp -> isub A X Y = Emp;
  imul_emp : forall X Y, X = Emp \/ Y = Emp -> imul A X Y = Emp;
  ineg_emp : ineg A Emp = Emp
}.

(** ** A concrete instance (exact addition, subtraction and negation; exact product of
    bounded intervals, [ALL] for products with an unbounded operand). *)

(** sum of two bounds, ibex::Interval, included by codac_Interval.h 15-20 *)
Definition oadd (a b : option R) : option R :=
  match a, b with Some x, Some y => Some (x + y) | _, _ => None end.
(** opposite of a bound, ibex::Interval, included by codac_Interval.h 15-20 *)
Definition oneg (a : option R) : option R :=
  match a with Some x => Some (- x) | None => None end.

(** exact sum, ibex::Interval, included by codac_Interval.h 15-20 *)
Definition xadd (X Y : itv) : itv :=
  match X, Y with Itv a b, Itv c d => Itv (oadd a c) (oadd b d) | _, _ => Emp end.
(** exact opposite, ibex::Interval, included by codac_Interval.h 15-20 *)
Definition xneg (X : itv) : itv :=
  match X with Itv a b => Itv (oneg b) (oneg a) | Emp => Emp end.
(** exact difference, ibex::Interval, included by codac_Interval.h 15-20 *)
Definition xsub (X Y : itv) : itv := xadd X (xneg Y).
(** minimum of the four products of bounds, ibex::Interval, included by codac_Interval.h 15-20 *)
Definition min4 a b c d := Rmin (Rmin a b) (Rmin c d).
(** maximum of the four products of bounds, ibex::Interval, included by codac_Interval.h 15-20 *)
Definition max4 a b c d := Rmax (Rmax a b) (Rmax c d).
(** exact product, ibex::Interval, included by codac_Interval.h 15-20 *)
Definition xmul (X Y : itv) : itv :=
  match X, Y with
  | Emp, _ | _, Emp => Emp
  | Itv (Some a) (Some b), Itv (Some c) (Some d) =>
      Itv (Some (min4 (a*c) (a*d) (b*c) (b*d))) (Some (max4 (a*c) (a*d) (b*c) (b*d)))
  | _, _ => ALL
  end.
(** the exact operators, ibex::Interval, included by codac_Interval.h 15-20 *)
Definition exact : arith := {| iadd := xadd; isub := xsub; imul := xmul; ineg := xneg |}.

Lemma min4_le a b c d : min4 a b c d <= a /\ min4 a b c d <= b /\ min4 a b c d <= c /\ min4 a b c d <= d.
Proof.
  unfold min4. pose proof (Rmin_l (Rmin a b) (Rmin c d)). pose proof (Rmin_r (Rmin a b) (Rmin c d)).
  pose proof (Rmin_l a b). pose proof (Rmin_r a b). pose proof (Rmin_l c d). pose proof (Rmin_r c d). lra.
Qed.
Lemma max4_ge a b c d : a <= max4 a b c d /\ b <= max4 a b c d /\ c <= max4 a b c d /\ d <= max4 a b c d.
Proof.
  unfold max4. pose proof (Rmax_l (Rmax a b) (Rmax c d)). pose proof (Rmax_r (Rmax a b) (Rmax c d)).
  pose proof (Rmax_l a b). pose proof (Rmax_r a b). pose proof (Rmax_l c d). pose proof (Rmax_r c d). lra.
Qed.

Lemma mul_bounds a b c d x y m M :
  a <= x <= b -> c <= y <= d ->
  (m <= a*c /\ m <= a*d /\ m <= b*c /\ m <= b*d) ->
  (a*c <= M /\ a*d <= M /\ b*c <= M /\ b*d <= M) ->
  m <= x*y <= M.
Proof.
  intros [Ha Hb] [Hc Hd] (m1&m2&m3&m4) (M1&M2&M3&M4).
  assert (P1 : m <= a*y <= M).
  { destruct (Rle_dec 0 a).
    - assert (a*c <= a*y) by (apply Rmult_le_compat_l; lra).
      assert (a*y <= a*d) by (apply Rmult_le_compat_l; lra). lra.
    - assert (a*d <= a*y) by (apply Rmult_le_compat_neg_l; lra).
      assert (a*y <= a*c) by (apply Rmult_le_compat_neg_l; lra). lra. }
  assert (P2 : m <= b*y <= M).
  { destruct (Rle_dec 0 b).
    - assert (b*c <= b*y) by (apply Rmult_le_compat_l; lra).
      assert (b*y <= b*d) by (apply Rmult_le_compat_l; lra). lra.
    - assert (b*d <= b*y) by (apply Rmult_le_compat_neg_l; lra).
      assert (b*y <= b*c) by (apply Rmult_le_compat_neg_l; lra). lra. }
  destruct (Rle_dec 0 y).
  - assert (a*y <= x*y) by (apply Rmult_le_compat_r; lra).
    assert (x*y <= b*y) by (apply Rmult_le_compat_r; lra). lra.
  - assert (y*b <= y*x) by (apply Rmult_le_compat_neg_l; lra).
    assert (y*x <= y*a) by (apply Rmult_le_compat_neg_l; lra).
    rewrite (Rmult_comm x y), (Rmult_comm a y), (Rmult_comm b y) in *. lra.
Qed.

Theorem exact_ok : arith_ok exact.
Proof.
  constructor; simpl.
  - intros x y [|[a|] [b|]] [|[c|] [d|]]; simpl; intuition lra.
  - intros x y [|[a|] [b|]] [|[c|] [d|]]; unfold xsub; simpl; intuition lra.
  - intros x y [|[a|] [b|]] [|[c|] [d|]]; simpl; try tauto.
    intros Hx Hy.
    apply (mul_bounds a b c d); auto using min4_le, max4_ge.
  - intros x [|[a|] [b|]]; simpl; intuition lra.
  - intros [|[a|] [b|]] [|[c|] [d|]]; simpl; intuition lra.
  - intros [|[a|] [b|]] [|[c|] [d|]]; unfold xsub; simpl; intuition lra.
  - intros [|[a|] [b|]] [|[c|] [d|]]; simpl; auto. intros _ _.
    pose proof (min4_le (a*c) (a*d) (b*c) (b*d)). pose proof (max4_ge (a*c) (a*d) (b*c) (b*d)). lra.
  - intros [|[a|] [b|]]; simpl; intuition lra.
  - intros X Y [->| ->]; [reflexivity|]. destruct X; reflexivity.
  - intros X Y [->| ->]; [reflexivity|]. destruct X; reflexivity.
  - intros X Y [->| ->]; [reflexivity|]. destruct X as [|[?|] [?|]]; reflexivity.
  - reflexivity.
Qed.
