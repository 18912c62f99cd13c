(** * Model of [codac::CtcDeriv] (/repo/src/core/contractors/dyn/codac_CtcDeriv.cpp) *)
From Coq Require Import Reals Lra Bool List Arith.
From Verif Require Import Itv Arith Tube TubeOps.
Import ListNotations.
Open Scope R_scope.

(** BOUNDED_INFINITY, /repo/src/core/geometry/codac_ThickPoint.h line 30:
    numeric_limits<float>::max() = (2 - 2^-23) * 2^127 *)
Definition binf : R := (2 - / 2 ^ 23) * 2 ^ 127.

(** The lines bounding a slice, codac_Slice_polygon.cpp 18-56.  [g] is the bound of a gate, [w] a
    bound of the derivative (None: infinite), [c] the instant of the gate.
    Simplifications: exact arithmetic; the product of an infinite double with the degenerate
    interval [0] is empty. *)
Definition line (g : R) (w : option R) (c t : R) : itv :=
  match w with Some w => pt (g + w * (t - c)) | None => Emp end.

(** lines_intersection_lb / lines_intersection_ub, codac_Slice_polygon.cpp 72-84 (computed with
    doubles in the code, exactly here) *)
Definition lines_lb (lb ub il ol vl vu : R) : R := (il - ol + vu * ub - vl * lb) / (vu - vl).
(** codac_Slice_polygon.cpp 72-84 *)
Definition lines_ub (lb ub iu ou vl vu : R) : R := (ou - iu + vu * lb - vl * ub) / (vu - vl).

(** the instant t_inter_lb, codac_Slice_polygon.cpp 115-122 *)
Definition t_inter_lb (lb ub il ol : R) (v : itv) : R :=
  match v with
  | Itv None _ => lb
  | Itv (Some _) None => ub
  | Itv (Some vl) (Some vu) => lines_lb lb ub il ol vl vu
  | Emp => lb
  end.
(** the instant t_inter_ub, codac_Slice_polygon.cpp 163-170 *)
Definition t_inter_ub (lb ub iu ou : R) (v : itv) : R :=
  match v with
  | Itv None _ => ub
  | Itv (Some _) None => lb
  | Itv (Some vl) (Some vu) => lines_ub lb ub iu ou vl vu
  | Emp => lb
  end.

(** Second coordinates of the vertices added between the gates for the lower part of the polygon,
    codac_Slice_polygon.cpp 109-151.  [cl] is codomain().lb(). *)
Definition low_pts (lb ub il ol : R) (cl : option R) (v : itv) : list R :=
  if is_degenerated v then []
  else
    let t := t_inter_lb lb ub il ol v in
    if Rleb lb t && Rleb t ub then
      match hull (line ol (ubound v) ub t) (line il (lbound v) lb t) with
      | Itv (Some y) (Some y') =>
          match cl with
          | Some c => if Rleb c y' then [y] else [c; c]
          | None => [y]
          end
      | _ => []
      end
    else [].
(** Same thing for the upper part, codac_Slice_polygon.cpp 159-201.  [cu] is codomain().ub(). *)
Definition upp_pts (lb ub iu ou : R) (cu : option R) (v : itv) : list R :=
  if is_degenerated v then []
  else
    let t := t_inter_ub lb ub iu ou v in
    if Rleb lb t && Rleb t ub then
      match hull (line ou (lbound v) ub t) (line iu (ubound v) lb t) with
      | Itv (Some y) (Some y') =>
          match cu with
          | Some c => if Rleb y c then [y'] else [c; c]
          | None => [y']
          end
      | _ => []
      end
    else [].

(** Slice::polygon(v).box()[1], codac_Slice_polygon.cpp 86-204 and Polygon::box, codac_Polygon.cpp:
    the hull of the second coordinates of the vertices.  An empty codomain gives the default
    polygon [-9999,9999]^2 (ConvexPolygon::ConvexPolygon(), codac_ConvexPolygon.cpp 26-30).
    Simplification: gates are expected to be bounded and non-empty (they are when called from
    CtcDeriv, or else they are empty): the other cases return the empty set. *)
Definition polygon_y (s sv : slice) : itv :=
  match s_cod s with
  | Emp => bnd (-9999) 9999
  | Itv cl cu =>
    if itv_eqb (s_cod sv) ALL then s_cod s
    else match s_in s, s_out s with
    | Itv (Some il) (Some iu), Itv (Some ol) (Some ou) =>
        fold_left (fun box y => hull box (pt y))
          ([il] ++ low_pts (s_lb s) (s_ub s) il ol cl (s_cod sv) ++ [ol; ou]
             ++ upp_pts (s_lb s) (s_ub s) iu ou cu (s_cod sv) ++ [iu]) Emp
    | _, _ => Emp
    end
  end.

(** Lines 191-196: a bound equal to BOUNDED_INFINITY is replaced by infinity *)
Definition unclip (i : itv) : itv :=
  match i with
  | Emp => Emp
  | Itv l h =>
      Itv (match l with Some a => if Reqb a (- binf) then None else Some a | None => None end)
          (match h with Some b => if Reqb b binf then None else Some b | None => None end)
  end.

(** CtcDeriv::contract(Slice&, const Slice&), codac_CtcDeriv.cpp 145-210, on slices of rank [k] of
    the tubes [x] and [v].  [rt] is m_restricted_tdomain (restrict_tdomain). *)
Definition deriv_slice (A : arith) (rt : itv) (v : tube) (x : tube) (k : nat) : tube :=
  match nth_error x k, nth_error v k with
  | Some s, Some sv =>
    if negb (intersects (s_dom s) rt) then x
    else
      let d := s_ub s - s_lb s in
      let ing := inter (s_in s) (isub A (s_out s) (imul A (pt d) (s_cod sv))) in
      let outg := inter (s_out s) (iadd A (s_in s) (imul A (pt d) (s_cod sv))) in
      if is_superset outg (s_out s) || is_superset ing (s_in s) then
        let e1 := inter (s_cod s) (Itv (Some (- binf)) (Some binf)) in
        let x1 := set_output_gate k outg true (set_input_gate k ing true (set_envelope k e1 true x)) in
        let e2 := match nth_error x1 k with Some s1 => inter e1 (polygon_y s1 sv) | None => e1 end in
        set_output_gate k (unclip outg) true
          (set_input_gate k (unclip ing) true (set_envelope k (unclip e2) true x1))
      else
        let e1 := inter (s_cod s) (iadd A ing (imul A (Itv (Some 0) (Some d)) (s_cod sv))) in
        let e2 := inter e1 (isub A outg (imul A (Itv (Some 0) (Some d)) (s_cod sv))) in
        set_output_gate k outg true (set_input_gate k ing true (set_envelope k e2 true x))
  | _, _ => x
  end.

(** CtcDeriv::contract(Tube&, const Tube&, TimePropag), codac_CtcDeriv.cpp 76-108 *)
Definition deriv_tube (A : arith) (rt : itv) (fwd bwd : bool) (v : tube) (x : tube) : tube :=
  let x1 := if fwd then fold_left (deriv_slice A rt v) (seq 0 (length x)) x else x in
  if bwd then fold_left (deriv_slice A rt v) (rev (seq 0 (length x))) x1 else x1.

(** CtcDeriv::contract_gates, codac_CtcDeriv.cpp 212-225 *)
Definition deriv_gates (A : arith) (v : tube) (x : tube) (k : nat) : tube :=
  match nth_error x k, nth_error v k with
  | Some s, Some sv =>
    let d := s_ub s - s_lb s in
    let outg := inter (s_out s) (iadd A (s_in s) (imul A (pt d) (s_cod sv))) in
    let x1 := set_output_gate k outg true x in
    let ing := inter (s_in s) (isub A outg (imul A (pt d) (s_cod sv))) in
    set_input_gate k ing true x1
  | _, _ => x
  end.
