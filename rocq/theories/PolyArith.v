(** * Operations on convex polygons

    Models /repo/src/core/arithmetic/codac_polygon_arithmetic.cpp and the constructors, [simplify] and [rotate] of
    /repo/src/core/geometry/codac_ConvexPolygon.cpp.  The operators of the intervals are a parameter [A]; the ones
    used by the convex hull and by the edges are a parameter [G] (the code has only one arithmetic). *)

From Coq Require Import Reals Lra Bool List Arith.
Import ListNotations.
From Verif Require Import Itv Arith TubeOps Geometry.
Open Scope R_scope.

(** rows and columns of an IntervalMatrix, used by codac_polygon_arithmetic.cpp 59-68 and codac_ConvexPolygon.cpp
    261-274 *)
Definition imatrix : Type := nat -> nat -> itv.

Section PolyArith.
  Variable A : arith.
  Variable G : garith.
  (** IntervalVector::mid, component by component (any value is accepted); codac_ConvexPolygon.cpp 57, 230, 251 *)
  Variable mid : itv -> R.

  (** ** Constructors *)

  (** [diam() < 1e-10] for a component; an unbounded component has an infinite diameter; codac_ConvexPolygon.cpp 69 *)
  Definition thin_itv (i : itv) : bool :=
    match i with Itv (Some a) (Some b) => Rltb (b - a) (/ 10000000000) | _ => false end.
  (** [max_diam() < 1e-10], codac_ConvexPolygon.cpp 69 *)
  Definition thin (p : tpoint) : bool := thin_itv (fst p) && thin_itv (snd p).
  (** lines 72 and 73 of codac_ConvexPolygon.cpp, for a component [i] with finite bounds *)
  Definition far_side (c : R) (i : itv) : R :=
    match i with Itv (Some a) (Some b) => if Rltb c a then b else a | _ => 0 end.
  (** the center of the middles, codac_ConvexPolygon.cpp 55-58, with exact sums *)
  Definition center (l : list tpoint) : pt2 :=
    let s := fold_left (fun c p => (fst c + mid (fst p), snd c + mid (snd p))) l (0, 0) in
    (fst s * (1 / INR (length l)), snd s * (1 / INR (length l))).
  (** the vertices that are kept for one point, codac_ConvexPolygon.cpp 69-82.  An unbounded point gives no vertex
      (simplification: the code makes vertices with infinite coordinates) *)
  Definition kept_pts (c : pt2) (p : tpoint) : list pt2 :=
    if thin p then [(far_side (fst c) (fst p), far_side (snd c) (snd p))] else bounds_pts p.
  (** ConvexPolygon(vector<ThickPoint>), codac_ConvexPolygon.cpp 48-86 *)
  Definition poly_of_thick (l : list tpoint) : polygon :=
    if existsb t_empty l then [] else convex_hull G (flat_map (kept_pts (center l)) l).
  (** ThickPoint::push(box, vector<Vector>), codac_ThickPoint.cpp 194-210; the box is bounded and not empty (lines
      197-198) *)
  Definition box_corners (x : tpoint) : list pt2 :=
    match x with
    | (Itv (Some a) (Some b), Itv (Some c) (Some d)) => [(a, c); (b, c); (b, d); (a, d)]
    | _ => []
    end.
  (** ConvexPolygon(IntervalVector), codac_ConvexPolygon.cpp 38-46 *)
  Definition poly_of_box (x : tpoint) : polygon := convex_hull G (box_corners x).
  (** ConvexPolygon(), codac_ConvexPolygon.cpp 26-30 *)
  Definition poly_default : polygon :=
    poly_of_box (Itv (Some (-9999)) (Some 9999), Itv (Some (-9999)) (Some 9999)).

  (** ** codac_polygon_arithmetic.cpp *)

  (** sum of two boxes, codac_polygon_arithmetic.cpp 35 *)
  Definition t_add (p v : tpoint) : tpoint := tpt (iadd A (fst p) (fst v)) (iadd A (snd p) (snd v)).
  (** opposite of a box, codac_polygon_arithmetic.cpp 51 *)
  Definition t_neg (v : tpoint) : tpoint := (ineg A (fst v), ineg A (snd v)).
  (** v + x, codac_polygon_arithmetic.cpp 29-39 *)
  Definition poly_add (v : tpoint) (x : polygon) : polygon := poly_of_thick (map (fun p => t_add (tvec p) v) x).
  (** -x, codac_polygon_arithmetic.cpp 41-47 *)
  Definition poly_neg (x : polygon) : polygon := map (fun p => (- fst p, - snd p)) x.
  (** x - v, codac_polygon_arithmetic.cpp 49-52 *)
  Definition poly_sub (x : polygon) (v : tpoint) : polygon := poly_add (t_neg v) x.
  (** v - x, codac_polygon_arithmetic.cpp 54-57 *)
  Definition box_sub_poly (v : tpoint) (x : polygon) : polygon := poly_add v (poly_neg x).
  (** sum of products (IBEX, product of a matrix with a vector or a matrix); codac_polygon_arithmetic.cpp 65 *)
  Fixpoint dot (n : nat) (a b : nat -> itv) : itv :=
    match n with O => pt 0 | S n => iadd A (dot n a b) (imul A (a n) (b n)) end.
  (** the components of a box; codac_polygon_arithmetic.cpp 65 *)
  Definition t_nth (p : tpoint) (i : nat) : itv := match i with O => fst p | _ => snd p end.
  (** m * x, codac_polygon_arithmetic.cpp 59-68 *)
  Definition poly_mul (m : imatrix) (x : polygon) : polygon :=
    poly_of_thick (map (fun p => tpt (dot 2 (m 0%nat) (t_nth (tvec p))) (dot 2 (m 1%nat) (t_nth (tvec p)))) x).
  (** p1 | p2, codac_polygon_arithmetic.cpp 139-147 *)
  Definition poly_union (p1 p2 : polygon) : polygon := poly_of_thick (map tvec p1 ++ map tvec p2).
  (** p1 | p2 for a box p1, codac_polygon_arithmetic.cpp 149-153, and for a box p2, lines 155-159 *)
  Definition box_union (x : tpoint) (p : polygon) : polygon := poly_union p (poly_of_box x).
  (** the points added for two edges, codac_polygon_arithmetic.cpp 94-116 *)
  Definition edge_points (e1 e2 : tedge) : list tpoint :=
    let q := e_inter G e1 e2 in
    if t_empty q then []
    else if negb (is_no (parallel G e1 e2)) then
      (if is_no (e_contains G e1 (fst e2)) then [] else [fst e2]) ++
      (if is_no (e_contains G e1 (snd e2)) then [] else [snd e2]) ++
      (if is_no (e_contains G e2 (fst e1)) then [] else [fst e1]) ++
      (if is_no (e_contains G e2 (snd e1)) then [] else [snd e1])
    else [q].
  (** inter_thickpoints, codac_polygon_arithmetic.cpp 70-120 *)
  Definition inter_thickpoints (p1 p2 : polygon) : list tpoint :=
    filter (fun p => negb (is_no (poly_contains G p2 p))) (map tvec p1) ++
    filter (fun p => negb (is_no (poly_contains G p1 p))) (map tvec p2) ++
    flat_map (fun e1 => flat_map (edge_points e1) (edges p2)) (edges p1).
  (** p1 & p2, codac_polygon_arithmetic.cpp 122-125 *)
  Definition poly_inter (p1 p2 : polygon) : polygon := poly_of_thick (inter_thickpoints p1 p2).
  (** p1 & p2 for a box p1, codac_polygon_arithmetic.cpp 127-131, and for a box p2, lines 133-137 *)
  Definition box_inter (x : tpoint) (p : polygon) : polygon := poly_inter p (poly_of_box x).

  (** ** ConvexPolygon::rotate *)

  (** cos(theta) and sin(theta) of an interval (IBEX), codac_ConvexPolygon.cpp 262-263 *)
  Variables icos isin : itv -> itv.
  (** rot, codac_ConvexPolygon.cpp 261-264 *)
  Definition rot_matrix (theta : itv) : imatrix := fun i j =>
    match i, j with
    | 0%nat, 0%nat => icos theta | 0%nat, 1%nat => ineg A (isin theta)
    | 1%nat, 0%nat => isin theta | 1%nat, 1%nat => icos theta
    | 2%nat, 2%nat => pt 1
    | _, _ => pt 0
    end.
  (** tra for [c], codac_ConvexPolygon.cpp 266-269; rtra for the opposite, lines 271-274 *)
  Definition tra_matrix (c : tpoint) : imatrix := fun i j =>
    match i, j with
    | 0%nat, 2%nat => fst c | 1%nat, 2%nat => snd c
    | 0%nat, 0%nat | 1%nat, 1%nat | 2%nat, 2%nat => pt 1
    | _, _ => pt 0
    end.
  (** product of two matrices of size 3 (IBEX), codac_ConvexPolygon.cpp 283 *)
  Definition mat_mul3 (a b : imatrix) : imatrix := fun i j => dot 3 (a i) (fun k => b k j).
  (** the vector of line 279-282 of codac_ConvexPolygon.cpp *)
  Definition hom (p : pt2) : nat -> itv := fun i => match i with 0%nat => pt (fst p) | 1%nat => pt (snd p) | _ => pt 1 end.
  (** rotate, codac_ConvexPolygon.cpp 259-288 *)
  Definition poly_rotate (theta : itv) (c : tpoint) (x : polygon) : polygon :=
    let m := mat_mul3 (mat_mul3 (tra_matrix c) (rot_matrix theta)) (tra_matrix (t_neg c)) in
    poly_of_thick (map (fun p => tpt (dot 3 (m 0%nat) (hom p)) (dot 3 (m 1%nat) (hom p))) x).
End PolyArith.
