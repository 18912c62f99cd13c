(** * SepPolarXY, the separator of a sector of a ring (src/core/geometry/codac_SepPolarXY.cpp) *)
From Coq Require Import Reals Bool List.
From Verif Require Import Itv Arith Static.
Open Scope R_scope.

(** The boxes of dimension two are pairs of intervals. The [double] operations on the limits are exact, [M_PI] is a
    parameter, [CtcPolar] is the one of Static.v (exact pi inside). *)
Section SepPolar.
  Variables (E : elem) (DBL_MAX : R).
  (** [Interval::mid] *)
  Variable mid : itv -> R.
  (** the constant [M_PI] of cmath *)
  Variable M_PI : R.
  (** [x.set_empty()] when a component is empty, codac_SepPolarXY.cpp 32-33 and 60-61; also the effect of
      [IntervalVector::operator&=] *)
  Definition norm2 (b : itv * itv) : itv * itv := if is_empty (fst b) || is_empty (snd b) then (Emp, Emp) else b.
  (** [IntervalVector::operator&=], used in codac_SepPolarXY.cpp 71-72 *)
  Definition inter2 (b c : itv * itv) : itv * itv := norm2 (inter (fst b) (fst c), inter (snd b) (snd c)).
  (** [Interval(a, i.lb())], codac_SepPolarXY.cpp 43 and 46: empty when the bounds are not ordered or when the upper
      one is -oo *)
  Definition upto (a : R) (i : itv) : itv := match i with Itv (Some l) _ => bnd a l | _ => Emp end.
  (** [Interval(i.ub(), POS_INFINITY)], line 44: empty when the lower bound is +oo *)
  Definition above (i : itv) : itv := match i with Itv _ (Some u) => Itv (Some u) None | _ => Emp end.
  (** [Interval(i.ub(), b)], line 47 *)
  Definition downto (i : itv) (b : R) : itv := match i with Itv _ (Some u) => bnd u b | _ => Emp end.
  (** [ctc.contract] on the two first components, codac_SepPolarXY.cpp 31 and 54-57 *)
  Definition polar_xy (b : itv * itv) (rho theta : itv) : option (itv * itv) :=
    match ctc_polar E DBL_MAX (fst b) (snd b) rho theta with Some (x, y, _, _) => Some (x, y) | None => None end.
  (** codac_SepPolarXY.cpp 28-34 *)
  Definition contract_out (rho theta : itv) (b : itv * itv) : option (itv * itv) :=
    match polar_xy b rho theta with Some b' => Some (norm2 b') | None => None end.
  (** codac_SepPolarXY.cpp 45 *)
  Definition limit (theta : itv) : R := mid theta - M_PI.
  (** codac_SepPolarXY.cpp 37-62; [None] when the domain of the sector is empty ([mid] is then not a number) *)
  Definition contract_in (rho theta : itv) (b : itv * itv) : option (itv * itv) :=
    if is_empty rho || is_empty theta then None
    else
      let rho_m := upto 0 rho in
      let rho_p := above rho in
      let theta_m := upto (limit theta) theta in
      let theta_p := downto theta (limit theta + 2 * M_PI) in
      match polar_xy b POS theta_m, polar_xy b POS theta_p, polar_xy b rho_m theta, polar_xy b rho_p theta with
      | Some (x1, y1), Some (x2, y2), Some (x3, y3), Some (x4, y4) =>
          Some (norm2 (inter (fst b) (hull (hull (hull x1 x2) x3) x4), inter (snd b) (hull (hull (hull y1 y2) y3) y4)))
      | _, _, _, _ => None
      end.
  (** codac_SepPolarXY.cpp 64-96; the result is (x_in, x_out). The lines 83-95 print a message. *)
  Definition sep_polar (rho theta : itv) (x_in x_out : itv * itv) : option ((itv * itv) * (itv * itv)) :=
    let x_out := inter2 x_out x_in in
    let x_in := inter2 x_in x_out in
    if is_empty (fst x_in) then Some (x_in, x_out)
    else
      match contract_out rho theta x_out, contract_in rho theta x_in with
      | Some x_out, Some x_in => Some (x_in, x_out)
      | _, _ => None
      end.
End SepPolar.
