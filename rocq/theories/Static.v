(** * Static contractors on boxes

    Models /repo/src/core/contractors/static/codac_CtcUnion.h, codac_CtcCartProd.cpp,
    codac_CtcBox.cpp, codac_CtcSegment.cpp, codac_CtcDist.cpp, codac_CtcPolar.cpp,
    /repo/src/robotics/contractors/codac_CtcConstell.cpp and
    /repo/src/core/separators/codac_CtcTransform.cpp. *)

From Coq Require Import Reals Lra Bool List Arith.
Import ListNotations.
From Verif Require Import Itv Arith.
Open Scope R_scope.

(** [codac::IntervalVector] is [ibex::IntervalVector]
    (/repo/src/core/domains/interval/codac_IntervalVector.h); a box is the list of its components.
    ibex::IntervalVector, included by codac_IntervalVector.h 15-21 *)
Definition box : Type := list itv.
(** [IntervalVector::is_empty()]: IBEX tests the first component only.
    ibex::IntervalVector, included by codac_IntervalVector.h 15-21 *)
Definition b_is_empty (b : box) : bool := match b with [] => false | i :: _ => is_empty i end.
(** [IntervalVector::set_empty()]; ibex::IntervalVector, included by codac_IntervalVector.h 15-21 *)
Definition b_set_empty (b : box) : box := map (fun _ => Emp) b.
(** application to the pairs of components, ibex::IntervalVector, included by codac_IntervalVector.h 15-21 *)
Fixpoint map2 (f : itv -> itv -> itv) (a b : box) : box :=
  match a, b with x :: a, y :: b => f x y :: map2 f a b | _, _ => [] end.
(** [IntervalVector::operator&=]: everything is emptied as soon as a component is empty.
    ibex::IntervalVector, included by codac_IntervalVector.h 15-21 *)
Definition b_inter (a b : box) : box :=
  if b_is_empty a then a
  else if b_is_empty b then b_set_empty a
  else let r := map2 inter a b in if existsb is_empty r then b_set_empty a else r.
(** [IntervalVector::operator|=]: an empty box changes nothing.
    ibex::IntervalVector, included by codac_IntervalVector.h 15-21 *)
Definition b_hull (a b : box) : box :=
  if b_is_empty b then a else if b_is_empty a then b else map2 hull a b.

(** A contractor: [Ctc::contract(IntervalVector&)]. codac_CtcBox.cpp 17-24 *)
Definition ctc_t : Type := box -> box.

(** codac_CtcUnion.h 41-60.  The list is [_v_ctc] followed by [_v_ctc_ptrs]. *)
Definition ctc_union (nb_var : nat) (cs : list ctc_t) (x : box) : box :=
  fold_left (fun result c => b_hull result (c x)) cs (repeat Emp nb_var).

(** codac_CtcCartProd.cpp 17-28: each contractor is given with its [nb_var]. *)
Fixpoint cart_prod_loop (cs : list (nat * ctc_t)) (index : nat) (x : box) : box :=
  match cs with
  | [] => x
  | (n, c) :: cs =>
      let sx := c (firstn n (skipn index x)) in
      cart_prod_loop cs (index + n) (firstn index x ++ sx ++ skipn (index + n) x)
  end.
(** codac_CtcCartProd.cpp 17-28 *)
Definition ctc_cart_prod (cs : list (nat * ctc_t)) (x : box) : box := cart_prod_loop cs 0 x.

(** codac_CtcBox.cpp 17-24 *)
Definition ctc_box (b : box) (x : box) : box := b_inter x b.

(** codac_CtcConstell.cpp 38-46; [mj.subvector(0,1)] is the first two components. *)
Definition ctc_constell (m : list box) (a : box) : box :=
  fold_left (fun u mj => b_hull u (b_inter a (firstn 2 mj))) m [Emp; Emp].

(** codac_CtcSegment.cpp 62-85.  [ctc_f], [ctc_g] are the IBEX forward/backward contractors of
    lines 39-53, abstracted as arbitrary contractors on (x,a,b). *)
Definition ctc_segment6 (ctc_f ctc_g : ctc_t) (x : box) : box :=
  let x1 := ctc_f x in if b_is_empty x1 then x1 else ctc_g x1.
(** codac_CtcSegment.cpp 62-85 *)
Definition ctc_segment2 (ctc_f ctc_g : ctc_t) (ax ay bx by_ : R) (x : box) : box :=
  let x1 := ctc_f (firstn 2 x ++ [pt ax; pt ay; pt bx; pt by_]) in
  if b_is_empty x1 then b_set_empty x
  else let x2 := ctc_g x1 in if b_is_empty x2 then b_set_empty x else firstn 2 x2.

(** codac_CtcTransform.cpp 22-35; [ffwd], [fbwd] are [Function::eval_vector].
    Line 33 evaluates [fbwd] on [box], not on [y]. *)
Definition ctc_transform (ctc ffwd fbwd : box -> box) (x : box) : box :=
  let y := ctc (ffwd x) in
  if b_is_empty y then b_set_empty x else b_inter x (fbwd x).

(** ** IBEX elementary functions used by CtcDist and CtcPolar *)
(** codac_CtcDist.cpp 36-60, codac_CtcPolar.cpp 20-160 *)
Record elem := {
  ar : arith;
  idiv : itv -> itv -> itv;
  isqr : itv -> itv;
  isqrt : itv -> itv;
  ibwd_sqr : itv -> itv -> itv;          (* bwd_sqr(y,x): the new x *)
  ibwd_add : itv -> itv -> itv -> itv * itv;  (* bwd_add(y,x1,x2): the new x1, x2 *)
  icos : itv -> itv;
  isin : itv -> itv;
  itan : itv -> itv;
  iatan : itv -> itv;
  iint : itv -> itv                       (* integer(x) *)
}.
(** the contract of these functions of IBEX, codac_CtcDist.cpp 36-60, codac_CtcPolar.cpp 20-160 *)
Record elem_ok (E : elem) : Prop := {
  ar_ok : arith_ok (ar E);
  idiv_in : forall x y X Y, In x X -> In y Y -> y <> 0 -> In (x / y) (idiv E X Y);
  isqr_in : forall x X, In x X -> In (x * x) (isqr E X);
  isqrt_in : forall x X, In x X -> 0 <= x -> In (sqrt x) (isqrt E X);
  ibwd_sqr_in : forall x X Y, In x X -> In (x * x) Y -> In x (ibwd_sqr E Y X);
  ibwd_sqr_sub : forall X Y, sub (ibwd_sqr E Y X) X;
  ibwd_sqr_emp : forall Y, ibwd_sqr E Y Emp = Emp;
  ibwd_add_in : forall x1 x2 X1 X2 Y, In x1 X1 -> In x2 X2 -> In (x1 + x2) Y ->
    In x1 (fst (ibwd_add E Y X1 X2)) /\ In x2 (snd (ibwd_add E Y X1 X2));
  icos_in : forall x X, In x X -> In (cos x) (icos E X);
  isin_in : forall x X, In x X -> In (sin x) (isin E X);
  itan_in : forall x X, In x X -> cos x <> 0 -> In (tan x) (itan E X);
  iatan_in : forall x X, In x X -> In (atan x) (iatan E X);
  iint_in : forall k X, In (IZR k) X -> In (IZR k) (iint E X)
}.

Section Elem.
  Variable E : elem.
  Notation "x +' y" := (iadd (ar E) x y) (at level 50, left associativity).
  Notation "x -' y" := (isub (ar E) x y) (at level 50, left associativity).
  Notation "x *' y" := (imul (ar E) x y) (at level 40, left associativity).
  Notation "-' x" := (ineg (ar E) x) (at level 35).

  (** codac_CtcDist.cpp 36-60; result: (ax, ay, bx, by, d) *)
  Definition ctc_dist (ax ay bx by_ d : itv) : itv * itv * itv * itv * itv :=
    let i1 := -' bx in
    let i2 := ax +' i1 in
    let i3 := isqr E i2 in
    let i4 := -' by_ in
    let i5 := ay +' i4 in
    let i6 := isqr E i5 in
    let i7 := i3 +' i6 in
    let d := inter d (isqrt E i7) in
    let i7 := inter i7 (isqr E d) in
    let i3 := inter i3 (i7 -' i6) in
    let i6 := inter i6 (i7 -' i3) in
    let i5 := ibwd_sqr E i6 i5 in
    let ay := inter ay (i5 -' i4) in
    let i4 := inter i4 (i5 -' ay) in
    let by_ := inter by_ (-' i4) in
    let i2 := ibwd_sqr E i3 i2 in
    let ax := inter ax (i2 -' i1) in
    let i1 := inter i1 (i2 -' ax) in
    let bx := inter bx (-' i1) in
    (ax, ay, bx, by_, d).

  (** In the part below the unary minus of intervals is exact ([xneg]), as it is in IBEX.

      Constants of codac_Interval.h.  Simplification: [PI] and [HALF_PI] are the exact points.
      codac_CtcPolar.cpp 47-48 *)
  Definition PI_i : itv := pt PI.
  (** codac_CtcPolar.cpp 47-48 *)
  Definition HALF_PI_i : itv := pt (PI / 2).
  (** codac_CtcPolar.cpp 20-27: the pair (x,y) after [bwd_imod2(x,y,2*PI)] *)
  Definition bwd_imod2 (x y : itv) : itv * itv :=
    let p := pt (2 * PI) in
    let z2 := iint E (idiv E (x -' y) p) in
    let x' := inter x (y +' (z2 *' p)) in
    let y' := inter y (x' -' (z2 *' p)) in
    (x', y').
  (** 29-43 *)
  Definition Cmod (x y : itv) : itv := snd (bwd_imod2 x y).
  (** codac_CtcPolar.cpp 29-43 *)
  Definition Cmod_bwd (x y : itv) : itv := fst (bwd_imod2 x y).
  (** 47-48 *)
  Definition i_0_pi2 : itv := hull (pt 0) HALF_PI_i.
  (** codac_CtcPolar.cpp 47-48 *)
  Definition i_pi_2pi : itv := hull HALF_PI_i PI_i.
  (** three empty intervals, codac_CtcPolar.cpp 55-73 *)
  Definition EEE : itv * itv * itv := (Emp, Emp, Emp).
  (** [Interval(numeric_limits<double>::max(), POS_INFINITY)], line 64 *)
  Variable DBL_MAX : R.
  (** the first quadrant, 55-73 *)
  Definition catan2_q1 (x y th : itv) : itv * itv * itv :=
    if itv_eqb x (pt 0) && itv_eqb y (pt 0) then EEE
    else
      let th_tmp := Cmod th i_0_pi2 in
      let tan_lb := match th_tmp with Itv (Some a) _ => itan E (pt a) | Itv None _ => ALL | Emp => Emp end in
      let tan_ub := match th_tmp with
                    | Itv _ (Some b) => if Reqb b (PI / 2) then Itv (Some DBL_MAX) None else itan E (pt b)
                    | Itv _ None => ALL
                    | Emp => Emp
                    end in
      let tanTh := hull tan_lb tan_ub in
      let x_ := if itv_eqb y (pt 0) then x else inter x (idiv E y tanTh) in
      let y_ := if itv_eqb x (pt 0) then y else inter y (x *' tanTh) in
      let thr := inter th_tmp (if itv_eqb x (pt 0) then HALF_PI_i else iatan E (idiv E y x)) in
      if is_empty x_ || is_empty y_ || is_empty thr then EEE else (x_, y_, thr).
  (** [Catan2], 45-112; the recursive calls (depth at most two, [C26_catan2_depth]) are bounded by
      [n]; [None] means that the bound was reached. *)
  Fixpoint catan2 (n : nat) (x y th : itv) : option (itv * itv * itv) :=
    if is_empty x || is_empty y || is_empty th then Some EEE
    else if is_subset x POS && is_subset y POS && is_subset th i_0_pi2 then Some (catan2_q1 x y th)
    else match n with
    | O => None
    | S n =>
        match catan2 n (inter x POS) (inter y POS) (Cmod th i_0_pi2),
              catan2 n (inter x POS) (xneg (inter y NEG)) (xneg (Cmod th (xneg i_0_pi2))),
              catan2 n (xneg (inter x NEG)) (xneg (inter y NEG)) (inter (PI_i +' Cmod th (xneg i_pi_2pi)) i_0_pi2),
              catan2 n (xneg (inter x NEG)) (inter y POS) (inter (PI_i -' Cmod th i_pi_2pi) i_0_pi2) with
        | Some (x1, y1, th1), Some (x2, y2, th2), Some (x3, y3, th3), Some (x4, y4, th4) =>
            let th11 := Cmod_bwd th th1 in
            let th22 := Cmod_bwd th (xneg th2) in
            let th33 := Cmod_bwd th (th3 -' PI_i) in
            let th44 := Cmod_bwd th (PI_i -' th4) in
            Some (hull (hull (hull x1 x2) (xneg x3)) (xneg x4),
                  hull (hull (hull y1 (xneg y2)) (xneg y3)) y4,
                  hull (hull (hull th11 th22) th33) th44)
        | _, _, _, _ => None
        end
    end.
  (** [_contract], 122-154 *)
  Definition polar1 (x y rho theta : itv) : option (itv * itv * itv * itv) :=
    match catan2 1 x y theta with
    | None => None
    | Some (x, y, theta) =>
        let a1 := isqr E x in
        let a2 := isqr E y in
        let a3 := a1 +' a2 in
        let a4 := isqr E rho in
        let a4 := inter a4 a3 in
        let a3 := inter a3 a4 in
        let rho := ibwd_sqr E a4 rho in
        let '(a2, a1) := ibwd_add E a3 a2 a1 in
        let x := ibwd_sqr E a1 x in
        let y := ibwd_sqr E a2 y in
        let x1 := rho *' icos E theta in
        let y1 := rho *' isin E theta in
        let x := inter x x1 in
        let y := inter y y1 in
        if is_empty x || is_empty y || is_empty rho || is_empty theta then Some (Emp, Emp, Emp, Emp)
        else Some (x, y, rho, theta)
    end.
  (** [CtcPolar::contract], 156-166: two passes *)
  Definition ctc_polar (x y rho theta : itv) : option (itv * itv * itv * itv) :=
    match polar1 x y rho theta with
    | Some (x, y, rho, theta) => polar1 x y rho theta
    | None => None
    end.
End Elem.
