(** * Model of [codac::TubePolynomialSynthesis]
      (/repo/src/core/domains/tube/codac_TubePolynomialSynthesis.cpp and .h)

    Doubles are exact reals.  The least squares fit of Eigen is a parameter [fit]; the bisection of IBEX (LargestFirst)
    is a parameter [cut].  The figures are not modelled.  [None]: an assertion fails, or an infinite (or empty)
    bound of the tube is used. *)
From Coq Require Import Reals Bool List Arith.
From Verif Require Import Itv Arith Tube TubeOps Geometry.
Import ListNotations.
Open Scope R_scope.

(** Polynomial::coeff, codac_TubePolynomialSynthesis.h 29: (coeff[0], coeff[1], coeff[2]); the offset (30) stays 0 *)
Definition poly : Type := (R * R * R)%type.
(** Polynomial::f on a point, codac_TubePolynomialSynthesis.h 32-38 *)
Definition p_f (p : poly) (t : R) : R := let '(c0, c1, c2) := p in 0 + c0 * 1 + c1 * t + c2 * (t * t).
(** PolynomialFactoredForm, codac_TubePolynomialSynthesis.h 41-45 *)
Record qform : Type := { q_a : R; q_b : R; q_c : R; q_off : R }.

Section Synth.
  Variable G : garith.
  (** the result of T.householderQr().solve(V), from the instants and values; codac_TubePolynomialSynthesis.cpp 103-124 *)
  Variable fit : list (R * R) -> poly.
  (** LargestFirst::bisect on [l,u]; codac_TubePolynomialSynthesis.cpp 59-61 *)
  Variable cut : R -> R -> R.

  (** PolynomialFactoredForm::f, codac_TubePolynomialSynthesis.h 47-50 *)
  Definition q_f (q : qform) (t : itv) : itv :=
    iadd (g_ar G) (iadd (g_ar G) (imul (g_ar G) (pt (q_c q)) (g_sqr G (isub (g_ar G) t (pt (q_a q))))) (pt (q_b q))) (pt (q_off q)).

  (** upper or lower bound of a codomain; codac_TubePolynomialSynthesis.cpp 136 *)
  Definition side (upper : bool) (i : itv) : option R := match i with Itv l h => if upper then h else l | Emp => None end.
  (** the loop of get_bounds from a given slice; codac_TubePolynomialSynthesis.cpp 129-140 *)
  Fixpoint bounds_loop (upper : bool) (l u : R) (x : tube) : option (list (R * R)) :=
    match x with
    | [] => Some []
    | s :: r =>
        match inter (s_dom s) (Itv (Some l) (Some u)) with
        | Itv (Some a) (Some b) =>
            match side upper (s_cod s), bounds_loop upper l u r with
            | Some v, Some d => Some ((a, v) :: (b, v) :: d)
            | _, _ => None
            end
        | _ => Some []
        end
    end.
  (** get_bounds, codac_TubePolynomialSynthesis.cpp 126-143: from slice(tdomain.lb()); assertion of 142 *)
  Definition get_bounds (upper : bool) (x : tube) (l u : R) : option (list (R * R)) :=
    match bounds_loop upper l u (skipn (time_to_index l x) x) with
    | Some d => if Nat.ltb 3 (length d) then Some d else None
    | None => None
    end.
  (** the offset, codac_TubePolynomialSynthesis.cpp 181-188 *)
  Definition offset_step (upper : bool) (p : poly) (o : option R) (d : R * R) : option R :=
    let diff := snd d - p_f p (fst d) in
    match o with
    | None => Some diff
    | Some o => Some (if upper then Rmax o diff else Rmin o diff)
    end.
  (** polynomial_factoredform, codac_TubePolynomialSynthesis.cpp 158-191 *)
  Definition factoredform (upper : bool) (x : tube) (l u : R) : option qform :=
    match get_bounds upper x l u with
    | None => None
    | Some d =>
        let p := fit d in
        let '(c0, c1, c2) := p in
        if Reqb c2 0 then None
        else
          let a := - c1 / (2 * c2) in
          let b := p_f p a in
          let z := if Reqb l a then u else l in
          let c := (p_f p z - b) / ((z - a) * (z - a)) in
          match fold_left (offset_step upper p) d None with
          | Some o => Some {| q_a := a; q_b := b; q_c := c; q_off := o |}
          | None => Some {| q_a := a; q_b := b; q_c := c; q_off := 0 |}
          end
    end.

  (** TubePolynomialTreeSynthesis: m_tdomain, m_p, m_codomain, m_left, m_right;
      codac_TubePolynomialSynthesis.h 74-80 *)
  Inductive ptree : Type :=
  | PLeaf (l u : R) (q : qform) (cod : itv)
  | PNode (l u : R) (q : qform) (cod : itv) (t1 t2 : ptree).

  (** the constructor, codac_TubePolynomialSynthesis.cpp 48-77.  [fuel]: depth of the recursion. *)
  Fixpoint build (fuel : nat) (upper : bool) (eps : R) (x : tube) (l u : R) : option ptree :=
    match fuel with
    | O => None
    | S fuel =>
        match factoredform upper x l u with
        | None => None
        | Some q =>
            let cod := q_f q (Itv (Some l) (Some u)) in
            if Rltb eps (Rabs (q_off q)) && Nat.ltb 3 (time_to_index u x - time_to_index l x) then
              let m := cut l u in
              match build fuel upper eps x l m, build fuel upper eps x m u with
              | Some t1, Some t2 => Some (PNode l u q cod t1 t2)
              | _, _ => None
              end
            else Some (PLeaf l u q cod)
        end
    end.
  (** TubePolynomialTreeSynthesis::operator(), codac_TubePolynomialSynthesis.cpp 88-101 *)
  Fixpoint teval (tr : ptree) (t : itv) : itv :=
    match tr with
    | PLeaf l u q cod =>
        let d := Itv (Some l) (Some u) in
        if negb (intersects t d) then Emp
        else if is_subset d t then cod
        else q_f q (inter t d)
    | PNode l u q cod t1 t2 =>
        if negb (intersects t (Itv (Some l) (Some u))) then Emp
        else hull (teval t1 t) (teval t2 t)
    end.
  (** TubePolynomialSynthesis, codac_TubePolynomialSynthesis.cpp 22-34: the tree of the lower bound, then of the upper one *)
  Definition synthesis (fuel : nat) (eps : R) (x : tube) : option (ptree * ptree) :=
    match build fuel false eps x (t0 x) (tf x), build fuel true eps x (t0 x) (tf x) with
    | Some lo, Some up => Some (lo, up)
    | _, _ => None
    end.
  (** TubePolynomialSynthesis::operator(), codac_TubePolynomialSynthesis.cpp 43-46 *)
  Definition seval (s : ptree * ptree) (t : itv) : itv := hull (teval (fst s) t) (teval (snd s) t).
End Synth.
