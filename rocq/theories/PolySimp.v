(** * Simplification of a convex polygon

    Models [surface] and [ConvexPolygon::simplify] of /repo/src/core/geometry/codac_ConvexPolygon.cpp.  The assertions
    of lines 194, 217-219, 228 and 255 and the messages of lines 222-224 are not modelled. *)

From Coq Require Import Reals Lra Bool List Arith.
Import ListNotations.
From Verif Require Import Itv Arith TubeOps Geometry PolyArith.
Open Scope R_scope.

Section PolySimp.
  Variable G : garith.
  (** IntervalVector::mid, component by component (any value is accepted); codac_ConvexPolygon.cpp 230, 251 *)
  Variable mid : itv -> R.
  Let A := g_ar G.

  (** abs of an interval (IBEX, without rounding); codac_ConvexPolygon.cpp 189 *)
  Definition iabs (x : itv) : itv :=
    match x with
    | Emp => Emp
    | Itv (Some a) (Some b) => Itv (Some (Rmax 0 (Rmax a (- b)))) (Some (Rmax (- a) b))
    | Itv (Some a) None => Itv (Some (Rmax 0 a)) None
    | Itv None (Some b) => Itv (Some (Rmax 0 (- b))) None
    | Itv None None => Itv (Some 0) None
    end.
  (** surface, codac_ConvexPolygon.cpp 186-190 *)
  Definition surface (p1 p2 p3 : tpoint) : itv :=
    let s := iadd A (iadd A (imul A (fst p1) (snd p2)) (imul A (fst p2) (snd p3))) (imul A (fst p3) (snd p1)) in
    let s := isub A (isub A (isub A s (imul A (fst p2) (snd p1))) (imul A (fst p3) (snd p2))) (imul A (fst p1) (snd p3)) in
    imul A (pt (/ 2)) (iabs s).
  (** diam of a component (IBEX); 0 for a component that is empty or unbounded, which the box of a polygon is not;
      codac_ConvexPolygon.cpp 196 *)
  Definition diam_of (i : itv) : R := match i with Itv (Some a) (Some b) => b - a | _ => 0 end.
  (** box_limit, codac_ConvexPolygon.cpp 195-196: the box of the polygon, inflated by [2 * max_diam()] *)
  Definition box_limit (v : polygon) : tpoint :=
    let b := poly_box v in
    let r := Rmax (diam_of (fst b)) (diam_of (snd b)) * 2 in
    (iadd A (fst b) (Itv (Some (- r)) (Some r)), iadd A (snd b) (Itv (Some (- r)) (Some r))).

  (** min_inter, min_surf (None for an infinite bound) and min_i, codac_ConvexPolygon.cpp 203-205 *)
  Record best : Type := mkBest { b_inter : tpoint; b_surf : option R; b_i : nat }.
  (** [surf < min_surf], codac_ConvexPolygon.cpp 238 *)
  Definition surf_lt (x y : option R) : bool :=
    match x, y with Some a, Some b => Rltb a b | Some _, None => true | None, _ => false end.
  (** a vertex, the index being taken modulo n; codac_ConvexPolygon.cpp 209-210 *)
  Definition vertex (v : polygon) (k : nat) : pt2 := nth (k mod length v) v (0, 0).
  (** the candidate i of the loop, codac_ConvexPolygon.cpp 207-245: None when the polygon is replaced by its limit
      (lines 220-227) *)
  Definition scan_step (v : polygon) (lim : tpoint) (st : option best) (i : nat) : option best :=
    match st with
    | None => None
    | Some b =>
        let n := length v in
        let e1 := edge (tvec (vertex v (i + n - 1))) (tvec (nth i v (0, 0))) in
        let e2 := edge (tvec (vertex v (i + 1))) (tvec (vertex v (i + 2))) in
        if is_no (parallel G e1 e2) then
          let w := proj_intersection G e1 e2 in
          if t_empty w then None
          else if negb (contains (fst lim) (mid (fst w)) && contains (snd lim) (mid (snd w))) then Some b
          else match orientation G (tvec (nth i v (0, 0))) w (tvec (vertex v (i + 1))) with
          | CLOCKWISE => Some b
          | _ =>
              let surf := oub (surface (tvec (nth i v (0, 0))) w (tvec (vertex v (i + 1)))) in
              if Nat.eqb (b_i b) 0 || surf_lt surf (b_surf b) then Some (mkBest w surf i) else Some b
          end
        else Some b
    end.
  (** the loop over the vertices, codac_ConvexPolygon.cpp 202-245 *)
  Definition scan (v : polygon) (lim : tpoint) : option best :=
    fold_left (scan_step v lim) (seq 0 (length v)) (Some (mkBest t_none (Some 0) 0)).
  (** [v[i] = w], codac_ConvexPolygon.cpp 251 *)
  Definition put (i : nat) (w : pt2) (v : polygon) : polygon := firstn i v ++ w :: skipn (S i) v.
  (** [v.erase(v.begin() + i)], codac_ConvexPolygon.cpp 252 *)
  Definition erase (i : nat) (v : polygon) : polygon := firstn i v ++ skipn (S i) v.
  (** the while loop, codac_ConvexPolygon.cpp 198-253; each iteration removes a vertex, [fuel] is the number of
      vertices *)
  Fixpoint simplify_loop (fuel : nat) (lim : tpoint) (m : nat) (v : polygon) : polygon :=
    match fuel with
    | O => v
    | S fuel =>
        if length v <=? m then v
        else match scan v lim with
        | None => poly_of_box G lim
        | Some b =>
            if t_empty (b_inter b) then v
            else simplify_loop fuel lim m
              (erase ((b_i b + 1) mod length v) (put (b_i b) (mid (fst (b_inter b)), mid (snd (b_inter b))) v))
        end
    end.
  (** ConvexPolygon::simplify, codac_ConvexPolygon.cpp 192-257 *)
  Definition simplify (m : nat) (v : polygon) : polygon := simplify_loop (length v) (box_limit v) m v.
End PolySimp.
