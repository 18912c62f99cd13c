(** * Integral of a tube without synthesis tree

    /repo/src/core/domains/tube/codac_Tube.cpp 1340-1460.  Sums and products of intervals are those of an
    inclusion-correct arithmetic [A].  Simplification: the products of doubles [intv_t.diam()*codomain().lb()]
    (lines 1425-1426, 1445-1446), which the code does not round outwards, are exact. *)

From Coq Require Import Reals Lra Bool List.
Import ListNotations.
From Verif Require Import Itv Arith Tube.
Open Scope R_scope.

(** [lb()] and [ub()] of a bounded non-empty interval; ibex::Interval, included by codac_Interval.h 15-20 *)
Definition lo (i : itv) : R := match i with Itv (Some a) _ => a | _ => 0 end.
(** ibex::Interval, included by codac_Interval.h 15-20 *)
Definition hi (i : itv) : R := match i with Itv _ (Some b) => b | _ => 0 end.

Section Integral.
  Variable A : arith.
  Notation pair := (itv * itv)%type.
  (** [p.first += w*codomain.lb(); p.second += w*codomain.ub()]; codac_Tube.cpp 1420-1447 *)
  Definition padd (p : pair) (w : R) (y : itv) : pair :=
    (iadd A (fst p) (pt (w * lo y)), iadd A (snd p) (pt (w * hi y))).
  (** [p.first += Interval(0.,w)*codomain.lb(); ...], lines 1438-1439 *)
  Definition padd_range (p : pair) (w : R) (y : itv) : pair :=
    (iadd A (fst p) (imul A (bnd 0 w) (pt (lo y))), iadd A (snd p) (imul A (bnd 0 w) (pt (hi y)))).
  (** hulls of the two pairs, codac_Tube.cpp 1439-1440 *)
  Definition phull (p q : pair) : pair := (hull (fst p) (fst q), hull (snd p) (snd q)).

  (** loop of lines 1439-1440 for [t = [tl,tu]] and a tube starting at [a];
      [p]: p_integ, [u]: p_integ_uncertain *)
  Fixpoint pint_loop (a tl tu : R) (ss : list slice) (p u : pair) : pair :=
    match ss with
    | [] => p
    | s :: r =>
      if negb (Rltb (s_lb s) tu) then p
      else if is_empty (s_cod s) then (Emp, Emp)
      else if is_unbounded (s_cod s) then (ALL, ALL)
      else
        let w1 := inter (s_dom s) (bnd a tl) in
        let '(p, u, stop) :=
          match w1 with
          | Emp => (p, u, false)
          | _ => let p := padd p (hi w1 - lo w1) (s_cod s) in (p, p, Reqb (hi w1) tu)
          end in
        if stop then p
        else
          let w2 := inter (s_dom s) (bnd tl tu) in
          match w2 with
          | Emp => pint_loop a tl tu r p u
          | _ => let d := hi w2 - lo w2 in
                 pint_loop a tl tu r (phull p (padd_range u d (s_cod s))) (padd u d (s_cod s))
          end
    end.
  (** Tube::partial_integral(t), 1389-1454, mode NONE *)
  Definition partial_integral (x : tube) (tl tu : R) : pair := pint_loop (t0 x) tl tu x (pt 0, pt 0) (pt 0, pt 0).

  (** the last lines of 1351-1358 and 1366-1386 *)
  Definition from_bounds (p : pair) : itv :=
    if is_empty (fst p) || is_empty (snd p) then Emp
    else if is_unbounded (fst p) || is_unbounded (snd p) then ALL
    else hull (pt (lo (fst p))) (pt (hi (snd p))).
  (** Tube::integral(t), 1346-1359 *)
  Definition integral (x : tube) (tl tu : R) : itv := from_bounds (partial_integral x tl tu).
  (** Tube::integral(t1,t2), 1361-1387 *)
  Definition integral2 (x : tube) (l1 u1 l2 u2 : R) : itv :=
    let p1 := partial_integral x l1 u1 in
    let p2 := partial_integral x l2 u2 in
    if is_empty (fst p1) || is_empty (snd p1) || (is_empty (fst p2) || is_empty (snd p2)) then Emp
    else if is_unbounded (fst p1) || is_unbounded (snd p1) || (is_unbounded (fst p2) || is_unbounded (snd p2)) then ALL
    else hull (pt (lo (isub A (fst p2) (fst p1)))) (pt (hi (isub A (snd p2) (snd p1)))).
End Integral.
