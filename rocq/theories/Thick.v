(** Thick sets of the unsupported part of the library: three-valued statuses (thick booleans),
    intervals whose bounds are uncertain (thick intervals), boxes of those (thick boxes) and the
    tests combining thick sets.

    Modelled files:
    - /repo/src/unsupported/thickset/codac_ThickBoolean.h
    - /repo/src/unsupported/thickset/codac_ThickInterval.h
    - /repo/src/unsupported/thickset/codac_ThickBox.h, codac_ThickBox_impl.hpp
    - /repo/src/unsupported/thickset/codac_ThickTest.cpp

    Not modelled: printing, [thickBooleanSum] (the loop of [ThickQInter::test] repeated),
    [ThickSector], the classes of /repo/src/unsupported/thickset/old.  The arithmetic of IBEX is
    taken with exact rounding. *)

From Coq Require Import Reals ZArith List Bool.
From Verif Require Import Itv Static Paving.
Import ListNotations.
Local Open Scope R_scope.

(** * Thick booleans *)

(** codac_ThickBoolean.h, lines 18-26: [enum class ThickBoolean]. *)
Inductive tb := TOut | TIn | TMaybe | TMaybeOut | TMaybeIn | TUnk | TEmpty.

(** codac_ThickBoolean.h, lines 18-26: the code of a value, used as the index of the tables
    ([OUT_=0], then 1, 2, ...). *)
Definition tcode (x : tb) : nat :=
  match x with TOut => 0 | TIn => 1 | TMaybe => 2 | TMaybeOut => 3 | TMaybeIn => 4 | TUnk => 5 | TEmpty => 6 end%nat.

(** codac_ThickBoolean.h, lines 96-105 and elsewhere: [x == y] on the enumeration. *)
Definition teqb (x y : tb) : bool := Nat.eqb (tcode x) (tcode y).

(** codac_ThickBoolean.h, lines 134, 177, 199, 221: [table[(int) x][(int) y]]; outside the table
    (never reached: EMPTY is treated before) the model answers EMPTY. *)
Definition tlook (t : list (list tb)) (x y : tb) : tb := nth (tcode y) (nth (tcode x) t []) TEmpty.

(** codac_ThickBoolean.h, lines 96-105: [opAnd]. *)
Definition opAnd (x y : tb) : tb :=
  if teqb x TEmpty || teqb y TEmpty then TEmpty
  else if teqb x TOut || teqb y TOut then TOut
  else if teqb x TUnk || teqb y TUnk then TUnk
  else if teqb x TMaybeOut || teqb y TMaybeOut then TMaybeOut
  else if teqb x TMaybe || teqb y TMaybe then TMaybe
  else if teqb x TMaybeIn || teqb y TMaybeIn then TMaybeIn
  else if teqb x y then x else TIn.

(** codac_ThickBoolean.h, lines 114-121: [table_or]. *)
Definition table_or : list (list tb) :=
  [ [TOut; TIn; TMaybe; TMaybeOut; TMaybeIn; TUnk];
    [TIn; TIn; TIn; TIn; TIn; TIn];
    [TMaybe; TIn; TMaybe; TMaybe; TMaybeIn; TMaybeIn];
    [TMaybeOut; TIn; TMaybe; TMaybeOut; TMaybeIn; TUnk];
    [TMaybeIn; TIn; TMaybeIn; TMaybeIn; TMaybeIn; TMaybeIn];
    [TUnk; TIn; TMaybeIn; TUnk; TMaybeIn; TUnk] ].

(** codac_ThickBoolean.h, lines 123-135: [opOr]. *)
Definition opOr (x y : tb) : tb :=
  if teqb x TEmpty || teqb y TEmpty then TEmpty else tlook table_or x y.

(** codac_ThickBoolean.h, lines 154-161: [table_Inter], the version that is compiled. *)
Definition table_inter : list (list tb) :=
  [ [TOut; TEmpty; TOut; TOut; TEmpty; TOut];
    [TEmpty; TIn; TIn; TEmpty; TIn; TIn];
    [TOut; TIn; TMaybe; TMaybeOut; TMaybeIn; TUnk];
    [TOut; TEmpty; TMaybeOut; TMaybeOut; TUnk; TUnk];
    [TEmpty; TIn; TMaybeIn; TUnk; TMaybeIn; TUnk];
    [TOut; TIn; TUnk; TUnk; TUnk; TUnk] ].

(** codac_ThickBoolean.h, lines 175-178: [opInter]. *)
Definition opInter (x y : tb) : tb :=
  if teqb x TEmpty || teqb y TEmpty then TEmpty else tlook table_inter x y.

(** codac_ThickBoolean.h, lines 186-193: [table_Union]. *)
Definition table_union : list (list tb) :=
  [ [TOut; TUnk; TMaybeOut; TMaybeOut; TUnk; TUnk];
    [TUnk; TIn; TMaybeIn; TUnk; TMaybeIn; TUnk];
    [TMaybeOut; TMaybeIn; TMaybe; TMaybeOut; TMaybeIn; TUnk];
    [TMaybeOut; TUnk; TMaybeOut; TMaybeOut; TUnk; TUnk];
    [TUnk; TMaybeIn; TMaybeIn; TUnk; TMaybeIn; TUnk];
    [TUnk; TUnk; TUnk; TUnk; TUnk; TUnk] ].

(** codac_ThickBoolean.h, lines 196-200: [opUnion]. *)
Definition opUnion (x y : tb) : tb :=
  if teqb x TEmpty then y else if teqb y TEmpty then x else tlook table_union x y.

(** codac_ThickBoolean.h, lines 208-215: [table_ThickInter]. *)
Definition table_thick_inter : list (list tb) :=
  [ [TOut; TEmpty; TEmpty; TOut; TOut; TOut];
    [TEmpty; TIn; TEmpty; TIn; TIn; TIn];
    [TEmpty; TEmpty; TMaybe; TMaybe; TMaybe; TMaybe];
    [TEmpty; TIn; TMaybe; TMaybeOut; TMaybe; TMaybeOut];
    [TEmpty; TIn; TMaybe; TMaybe; TMaybeIn; TMaybeIn];
    [TEmpty; TIn; TMaybe; TMaybeOut; TMaybeIn; TUnk] ].

(** codac_ThickBoolean.h, lines 218-222: [opThickInter]. *)
Definition opThickInter (x y : tb) : tb :=
  if teqb x TEmpty then y else if teqb y TEmpty then x else tlook table_thick_inter x y.

(** codac_ThickBoolean.h, lines 225-227: [is_singleton]. *)
Definition is_singleton (b : tb) : bool := teqb b TIn || teqb b TOut || teqb b TMaybe || teqb b TEmpty.

(** codac_ThickBoolean.h, lines 231-233: [can_be_inside]. *)
Definition can_be_inside (b : tb) : bool := teqb b TIn || teqb b TMaybeIn || teqb b TMaybe.

(** codac_ThickBoolean.h, lines 235-237: [can_be_outside]. *)
Definition can_be_outside (b : tb) : bool := teqb b TOut || teqb b TMaybeOut || teqb b TMaybe.

(** codac_ThickBoolean.h, lines 240-246: [opNot]. *)
Definition opNot (x : tb) : tb :=
  if teqb x TIn then TOut else if teqb x TOut then TIn
  else if teqb x TMaybeIn then TMaybeOut else if teqb x TMaybeOut then TMaybeIn else x.

(** codac_ThickBoolean.h, lines 248-252: [opUpper]. *)
Definition opUpper (x : tb) : tb :=
  if teqb x TMaybeIn || teqb x TMaybe then TIn else if teqb x TMaybeOut then TUnk else x.

(** codac_ThickBoolean.h, lines 254-258: [opLower]. *)
Definition opLower (x : tb) : tb :=
  if teqb x TMaybeOut || teqb x TMaybe then TOut else if teqb x TMaybeIn then TUnk else x.

(** codac_ThickBoolean.h, lines 266-268: [opRestrict]. *)
Definition opRestrict (x y : tb) : tb := opAnd x (opNot y).

(** codac_ThickBoolean.h, lines 284-288: [opXor]. *)
Definition opXor (x y : tb) : tb := opUnion (opRestrict x y) (opRestrict y x).

(** codac_ThickBoolean.h, lines 297-317: [opSupSub]. *)
Definition opSupSub (i o : tb) : tb :=
  match i, o with
  | TOut, TOut => TOut | TOut, TIn => TMaybe | TOut, TUnk => TMaybeOut
  | TIn, TOut => TEmpty | TIn, TIn => TIn | TIn, TUnk => TIn
  | TUnk, TOut => TOut | TUnk, TIn => TMaybeIn | TUnk, TUnk => TUnk
  | _, _ => opUnion i o
  end.

(** * Thick intervals *)

(** codac_ThickInterval.h, lines 28 and 134: class [ThickInterval], members [lb_], [ub_]. *)
Record titv := mkT { tlb : itv; tub : itv }.

(** codac_ThickInterval.h, lines 22-26: [lb_.ub() > ub_.ub()] for non-empty intervals; [None] is
    +oo. *)
Definition hi_gtb (a b : option R) : bool :=
  match a, b with _, None => false | None, Some _ => true | Some x, Some y => Rltb y x end.

(** codac_ThickInterval.h, lines 22-26: [ub_.lb() < lb_.lb()] for non-empty intervals; [None] is
    -oo. *)
Definition lo_ltb (a b : option R) : bool :=
  match a, b with _, None => false | None, Some _ => true | Some x, Some y => Rltb x y end.

(** codac_ThickInterval.h, lines 21-26: [CHECK_THICKINTERVAL], and lines 146-148: the constructor
    from two intervals. *)
Definition t_new (l u : itv) : titv :=
  match l, u with
  | Itv l1 h1, Itv l2 h2 => if hi_gtb h1 h2 || lo_ltb l2 l1 then mkT Emp Emp else mkT l u
  | _, _ => mkT Emp Emp
  end.

(** codac_ThickInterval.h, line 151: [lb_(bounds.lb())]; an IBEX interval built from an infinite or
    not-a-number double is empty. *)
Definition lb_pt (i : itv) : itv := match i with Itv (Some a) _ => pt a | _ => Emp end.

(** codac_ThickInterval.h, line 151: [ub_(bounds.ub())]. *)
Definition ub_pt (i : itv) : itv := match i with Itv _ (Some b) => pt b | _ => Emp end.

(** codac_ThickInterval.h, lines 150-151: the constructor from one interval. *)
Definition t_of (i : itv) : titv := t_new (lb_pt i) (ub_pt i).

(** codac_ThickInterval.h, lines 157-159 and the three next functions: [(i - j).ub() <= 0], false
    when one of the operands is empty (the bound is not a number) and when the bound is +oo. *)
Definition ub_sub_le0 (i j : itv) : bool :=
  match i, j with Itv _ (Some u), Itv (Some l) _ => Rleb (u - l) 0 | _, _ => false end.

(** codac_ThickInterval.h, lines 156-160: [intersects]. *)
Definition t_intersects (a b : titv) : bool := ub_sub_le0 (tlb b) (tub a) && ub_sub_le0 (tlb a) (tub b).

(** codac_ThickInterval.h, lines 162-166: [is_disjoint]. *)
Definition t_is_disjoint (a b : titv) : bool := ub_sub_le0 (tub a) (tlb b) && ub_sub_le0 (tub b) (tlb a).

(** codac_ThickInterval.h, lines 168-172: [is_not_subset]. *)
Definition t_is_not_subset (a b : titv) : bool := ub_sub_le0 (tlb a) (tlb b) || ub_sub_le0 (tub b) (tub a).

(** codac_ThickInterval.h, lines 174-178: [is_subset]. *)
Definition t_is_subset (a b : titv) : bool := ub_sub_le0 (tlb b) (tlb a) && ub_sub_le0 (tub a) (tub b).

(** codac_ThickInterval.h, lines 187-189: [is_empty]. *)
Definition t_is_empty (a : titv) : bool := is_empty (tlb a) && is_empty (tub a).

(** codac_ThickInterval.h, lines 191-193: [superset]; [Interval(a,b)] is empty when the bounds are
    not numbers. *)
Definition t_superset (a : titv) : itv :=
  match tlb a, tub a with Itv l _, Itv _ h => mk l h | _, _ => Emp end.

(** codac_ThickInterval.h, lines 195-199: [subset]; [lb().ub() < ub().lb()] compares an upper bound
    (possibly +oo) with a lower bound (possibly -oo). *)
Definition t_subset (a : titv) : itv :=
  match tlb a, tub a with
  | Itv _ (Some h), Itv (Some l) _ => if Rltb h l then bnd h l else Emp
  | _, _ => Emp
  end.

(** codac_ThickInterval.h, line 204: [ibex::max] of two intervals. *)
Definition i_max (i j : itv) : itv :=
  match i, j with Itv l1 h1, Itv l2 h2 => Itv (max_lo l1 l2) (max_hi h1 h2) | _, _ => Emp end.

(** codac_ThickInterval.h, line 205: [ibex::min] of two intervals. *)
Definition i_min (i j : itv) : itv :=
  match i, j with Itv l1 h1, Itv l2 h2 => Itv (min_lo l1 l2) (min_hi h1 h2) | _, _ => Emp end.

(** codac_ThickInterval.h, line 208: the constant [1e10]. *)
Definition T_BIG : R := 10000000000.

(** codac_ThickInterval.h, lines 202-211: [inter]; [Interval(NEG_INFINITY, new_ub.ub())] and
    [Interval(new_lb.lb(), 1e10)] are empty when the bound is not a number. *)
Definition t_inter (a b : titv) : titv :=
  if negb (is_empty (inter (t_superset a) (t_superset b))) then
    let new_lb := i_max (tlb a) (tlb b) in
    let new_ub := i_min (tub a) (tub b) in
    t_new (inter new_lb (match new_ub with Itv _ h => Itv None h | Emp => Emp end))
          (inter new_ub (match new_lb with Itv l _ => mk l (Some T_BIG) | Emp => Emp end))
  else t_new Emp Emp.

(** codac_ThickInterval.h, lines 217-229: [is_inside]; the calls [intersects(y)] and
    [is_not_subset(y)] convert [y] to a thick interval. *)
Definition t_is_inside (a : titv) (y : itv) : tb :=
  if is_subset (t_superset a) y then TIn
  else if negb (intersects (t_superset a) y) then TOut
  else
    let b1 := t_intersects a (t_of y) in
    let b2 := t_is_not_subset a (t_of y) in
    if b1 && b2 then TMaybe else if negb b1 && b2 then TMaybeOut else if negb b2 && b1 then TMaybeIn
    else TUnk.

(** * Thick boxes *)

(** codac_ThickBox.h, lines 22-26: class [ThickBox], a vector of thick intervals. *)
Definition tbox := list titv.

(** codac_ThickBox.h, lines 26-30: the constructor from two boxes. *)
Definition tb_new (l u : box) : tbox := map (fun p => t_new (fst p) (snd p)) (combine l u).

(** codac_ThickBox.h, lines 32-36: the constructor from a box. *)
Definition tb_of (b : box) : tbox := map t_of b.

(** codac_ThickBox_impl.hpp, lines 25-31: [superset]. *)
Definition tb_superset (a : tbox) : box := map t_superset a.

(** codac_ThickBox_impl.hpp, lines 74-80: [intersects]. *)
Definition tb_intersects (a : tbox) (y : box) : bool :=
  fold_left (fun r p => r && t_intersects (fst p) (t_of (snd p))) (combine a y) true.

(** codac_ThickBox_impl.hpp, lines 82-88: [is_not_subset]. *)
Definition tb_is_not_subset (a : tbox) (y : box) : bool :=
  fold_left (fun r p => r || t_is_not_subset (fst p) (t_of (snd p))) (combine a y) false.

(** codac_ThickBox_impl.hpp, lines 90-96: [is_subset] of a box. *)
Definition tb_is_subset (a : tbox) (y : box) : bool :=
  fold_left (fun r p => r && t_is_subset (fst p) (t_of (snd p))) (combine a y) true.

(** codac_ThickBox_impl.hpp, lines 98-104: [is_subset] of a thick box; the accumulator starts with
    [false]. *)
Definition tb_is_subset_t (a b : tbox) : bool :=
  fold_left (fun r p => r && t_is_subset (fst p) (snd p)) (combine a b) false.

(** codac_ThickBox_impl.hpp, lines 106-115: [inter] (codac_ThickBox.cpp, lines 101-103, holds another,
    empty, body, which is not modelled).  An empty component makes every component
    empty; boxes of different sizes are an assertion failure. *)
Definition tb_inter (a b : tbox) : option tbox :=
  if Nat.eqb (length a) (length b) then
    let r := map (fun p => t_inter (fst p) (snd p)) (combine a b) in
    if existsb t_is_empty r then Some (map (fun _ => mkT Emp Emp) a) else Some r
  else None.

(** codac_ThickBox_impl.hpp, lines 121-134: [is_inside]; the comparisons of plain boxes are those of
    IBEX, where a box is empty when its first component is ([Paving.b_is_subset],
    [Paving.b_intersects]). *)
Definition tb_is_inside (a : tbox) (y : box) : tb :=
  if b_is_subset (tb_superset a) y then TIn
  else if negb (b_intersects (tb_superset a) y) then TOut
  else
    let b1 := tb_intersects a y in
    let b2 := tb_is_not_subset a y in
    if b1 && b2 then TMaybe else if negb b1 && b2 then TMaybeOut else if negb b2 && b1 then TMaybeIn
    else TUnk.

(** * Tests *)

(** codac_ThickTest.cpp, lines 111-118: [ThickAnd::test]; the arguments are the answers of the tests
    of the list on the box.  An empty list is an out-of-range access. *)
Definition test_and (l : list tb) : option tb :=
  match l with [] => None | b :: r => Some (fold_left opAnd r b) end.

(** codac_ThickTest.cpp, lines 120-127: [ThickInter::test]. *)
Definition test_inter (l : list tb) : option tb :=
  match l with [] => None | b :: r => Some (fold_left opInter r b) end.

(** codac_ThickTest.cpp, lines 131-134: the loop of [ThickOr::test], left at the first IN. *)
Fixpoint or_loop (l : list tb) (b : tb) : tb :=
  match l with
  | [] => b
  | t :: r => let b' := opOr b t in if teqb b' TIn then b' else or_loop r b'
  end.

(** codac_ThickTest.cpp, lines 129-136: [ThickOr::test]. *)
Definition test_or (l : list tb) : option tb :=
  match l with [] => None | b :: r => Some (or_loop r b) end.

(** codac_ThickTest.cpp, lines 57-81: one turn of the loop of [ThickQInter::test]; the two intervals
    [sum_lb], [sum_ub] have integer bounds, kept here as [(lb, ub)] pairs of integers. *)
Definition q_step (s : (Z * Z) * (Z * Z)) (b : tb) : (Z * Z) * (Z * Z) :=
  let '((a, b'), (c, d)) := s in
  match b with
  | TIn => ((a + 1, b' + 1), (c + 1, d + 1))
  | TMaybe => ((a, b'), (c + 1, d + 1))
  | TMaybeOut => ((a, b'), (c, d + 1))
  | TMaybeIn => ((a, b' + 1), (c + 1, d + 1))
  | TUnk => ((a, b' + 1), (c, d + 1))
  | TOut | TEmpty => s
  end%Z.

(** codac_ThickTest.cpp, lines 96-98: [b_sup.is_subset(Interval(p, q))], the interval being empty
    when [p > q]. *)
Definition z_subset (x y p q : Z) : bool := (Z.leb p q && Z.leb p x && Z.leb y q)%Z.

(** codac_ThickTest.cpp, lines 53-108: [ThickQInter::test]. *)
Definition test_qinter (q : Z) (l : list tb) : tb :=
  let '((a, b), (c, d)) := fold_left q_step l ((0, 0), (0, 0))%Z in
  let sup_l := Z.min a c in
  let sup_u := Z.max b d in
  let b1 := Z.leb (q - c) 0 in
  let b2 := Z.ltb (b - q) 0 in
  if z_subset sup_l sup_u q 1000 then TIn
  else if z_subset sup_l sup_u 0 (q - 1) then TOut
  else if b1 && negb b2 then TMaybeIn
  else if negb b1 && b2 then TMaybeOut
  else if b1 && b2 then TMaybe
  else TUnk.
