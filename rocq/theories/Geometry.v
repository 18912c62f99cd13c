(** * Thick points, edges, convex polygons

    Models /repo/src/core/geometry/codac_ThickPoint.cpp, codac_ThickEdge.cpp, codac_Polygon.cpp,
    codac_ConvexPolygon.cpp, codac_GrahamScan.cpp and
    /repo/src/core/arithmetic/codac_polygon_arithmetic.cpp.  The coordinates of the vertices are real numbers; the
    intervals are computed by an inclusion-correct arithmetic, given as a parameter. *)

From Coq Require Import Reals Lra Bool List Arith.
Import ListNotations.
From Verif Require Import Itv Arith TubeOps.
Open Scope R_scope.

(** Interval operations of IBEX that are used: [+ - *], [/] (codac_ThickEdge.cpp 203-244), [pow(x,2)]
    (codac_GrahamScan.cpp 134, codac_ThickEdge.cpp 118). *)
Record garith : Type := { g_ar : arith; g_div : itv -> itv -> itv; g_sqr : itv -> itv }.
(** what is expected of them: inclusion.  Nothing is said about a division by zero.
    codac_ThickEdge.cpp 118, 203-244 *)
Record garith_ok (G : garith) : Prop := {
  g_ar_ok : arith_ok (g_ar G);
  g_div_in : forall x y X Y, In x X -> In y Y -> y <> 0 -> In (x / y) (g_div G X Y);
  g_sqr_in : forall x X, In x X -> In (x * x) (g_sqr G X) }.

(** An exact instance.  As in IBEX the division by [0,0] is empty; a divisor that contains zero and something else
    gives [-oo,oo] (simplification: IBEX returns a half-line when it is enough). *)
Definition xdiv (X Y : itv) : itv :=
  match X, Y with
  | Emp, _ | _, Emp => Emp
  | _, Itv (Some c) (Some d) =>
      if Reqb c 0 && Reqb d 0 then Emp
      else if Rltb 0 c || Rltb d 0 then
        match X with
        | Itv (Some a) (Some b) =>
            Itv (Some (min4 (a / c) (a / d) (b / c) (b / d))) (Some (max4 (a / c) (a / d) (b / c) (b / d)))
        | _ => ALL
        end
      else ALL
  | _, _ => ALL
  end.
(** square of an interval (IBEX), exact; codac_ThickEdge.cpp 118 *)
Definition xsqr (X : itv) : itv :=
  match X with
  | Emp => Emp
  | Itv (Some a) (Some b) =>
      if Rleb 0 a then Itv (Some (a * a)) (Some (b * b))
      else if Rleb b 0 then Itv (Some (b * b)) (Some (a * a))
      else Itv (Some 0) (Some (Rmax (a * a) (b * b)))
  | _ => ALL
  end.
(** the exact arithmetic; codac_ThickEdge.cpp 118, 203-244 *)
Definition gexact : garith := {| g_ar := exact; g_div := xdiv; g_sqr := xsqr |}.

(** ** codac_ThickPoint.cpp *)

(** a Vector of two components: vertices, codac_Polygon.h (m_v_floating_pts); codac_Polygon.h 70 *)
Definition pt2 : Type := (R * R)%type.
(** ThickPoint: the box m_pt, codac_ThickPoint.h 98 *)
Definition tpoint : Type := (itv * itv)%type.
(** ThickPoint(), codac_ThickPoint.h 98 *)
Definition t_none : tpoint := (Emp, Emp).
(** ThickPoint(x,y), codac_ThickPoint.cpp 38-45 *)
Definition tpt (x y : itv) : tpoint := (if is_empty y then Emp else x, if is_empty x then Emp else y).
(** ThickPoint(Vector), codac_ThickPoint.cpp 26-30 *)
Definition tvec (p : pt2) : tpoint := tpt (pt (fst p)) (pt (snd p)).
(** does_not_exist, codac_ThickPoint.cpp 110-113; IntervalVector::is_empty reads the first component *)
Definition t_empty (p : tpoint) : bool := is_empty (fst p).
(** hull and intersection of the boxes of two points (IntervalVector operators); codac_ThickEdge.cpp 136-169 *)
Definition t_hull (p q : tpoint) : tpoint :=
  if t_empty p then q else if t_empty q then p else (hull (fst p) (fst q), hull (snd p) (snd q)).
(** IntervalVector operator& : the empty box when a component is empty; codac_ThickEdge.cpp 136-169 *)
Definition t_inter (p q : tpoint) : tpoint := tpt (inter (fst p) (fst q)) (inter (snd p) (snd q)).
(** IntervalVector::is_subset; codac_ThickEdge.cpp 136-169 *)
Definition t_subset (p q : tpoint) : bool :=
  if t_empty p then true else if t_empty q then false else is_subset (fst p) (fst q) && is_subset (snd p) (snd q).
(** IntervalVector::is_unbounded, codac_ThickPoint.cpp 105-108 *)
Definition t_unbounded (p : tpoint) : bool := negb (t_empty p) && (is_unbounded (fst p) || is_unbounded (snd p)).
(** equality of two vectors; codac_ThickPoint.cpp 230-238 *)
Definition v_eqb (p q : pt2) : bool := Reqb (fst p) (fst q) && Reqb (snd p) (snd q).
(** remove_identical_pts, codac_ThickPoint.cpp 230-238 *)
Definition remove_identical (l : list pt2) : list pt2 :=
  fold_left (fun acc p => if existsb (v_eqb p) acc then acc else acc ++ [p]) l [].

Section Geometry.
  Variable G : garith.
  Notation "x +' y" := (iadd (g_ar G) x y) (at level 50, left associativity).
  Notation "x -' y" := (isub (g_ar G) x y) (at level 50, left associativity).
  Notation "x *' y" := (imul (g_ar G) x y) (at level 40, left associativity).
  Notation "x /' y" := (g_div G x y) (at level 40, left associativity).

  (** ThickPoint::aligned, codac_ThickPoint.cpp 157-161 *)
  Definition aligned (a b c : tpoint) : bool3 :=
    let cp := (fst b -' fst a) *' (snd c -' snd a) -' (snd b -' snd a) *' (fst c -' fst a) in
    if itv_eqb cp (pt 0) then YES else if contains cp 0 then MAYBE else NO.

  (** ** codac_ThickEdge.cpp *)

  (** ThickEdge: the array m_pts, codac_ThickEdge.h 80 *)
  Definition tedge : Type := (tpoint * tpoint)%type.
  (** ThickEdge(p1,p2), codac_ThickEdge.cpp 22-29 *)
  Definition edge (p1 p2 : tpoint) : tedge :=
    let q1 := if t_empty p2 then t_none else p1 in
    (q1, if t_empty q1 then t_none else p2).
  (** box, codac_ThickEdge.cpp 62-65 *)
  Definition e_box (e : tedge) : tpoint := t_hull (fst e) (snd e).
  (** is_horizontal, codac_ThickEdge.cpp 70-80 *)
  Definition is_horizontal (e : tedge) : bool3 :=
    if is_degenerated (snd (e_box e)) then YES
    else if intersects (snd (fst e)) (snd (snd e)) then MAYBE else NO.
  (** is_vertical, codac_ThickEdge.cpp 82-92 *)
  Definition is_vertical (e : tedge) : bool3 :=
    if is_degenerated (fst (e_box e)) then YES
    else if intersects (fst (fst e)) (fst (snd e)) then MAYBE else NO.
  (** is_degenerated, codac_ThickEdge.cpp 94-104 *)
  Definition e_degenerated (e : tedge) : bool3 :=
    if itv_eqb (fst (fst e)) (fst (snd e)) && itv_eqb (snd (fst e)) (snd (snd e)) then YES
    else if intersects (fst (fst e)) (fst (snd e)) && intersects (snd (fst e)) (snd (snd e)) then MAYBE else NO.
  (** does_not_exist, codac_ThickEdge.cpp 106-109 *)
  Definition e_empty (e : tedge) : bool := t_empty (fst e) || t_empty (snd e).
  (** [x == NO], [x != NO] on BoolInterval; codac_ThickEdge.cpp 183-219 *)
  Definition is_no (b : bool3) : bool := match b with NO => true | _ => false end.
  (** [x == YES]; codac_ThickEdge.cpp 266-270 *)
  Definition is_yes (b : bool3) : bool := match b with YES => true | _ => false end.

  (** contains, codac_ThickEdge.cpp 111-121 *)
  Definition e_contains (e : tedge) (p : tpoint) : bool3 :=
    let '(p0, p1) := e in
    if is_no (aligned p p0 p1) then NO
    else
      let k1 := (fst p1 -' fst p0) *' (fst p1 -' fst p) +' (snd p1 -' snd p0) *' (snd p1 -' snd p) in
      let k2 := g_sqr G (fst p1 -' fst p0) +' g_sqr G (snd p1 -' snd p0) in
      if is_subset k1 (hull k2 (pt 0)) then MAYBE else NO.

  (** proj_intersection, codac_ThickEdge.cpp 177-248, when it is not the permutation of lines 183-184 *)
  Definition proj0 (e1 e2 : tedge) : tpoint :=
    let b1 := e_box e1 in
    let b2 := e_box e2 in
    if negb (is_no (e_degenerated e1)) && negb (is_no (e_degenerated e2)) then
      tpt (inter (fst b1) (fst b2)) (inter (snd b1) (snd b2))
    else if negb (is_no (is_vertical e2)) then
      if negb (is_no (e_degenerated e1)) then tpt (inter (fst b1) (fst b2)) (snd b1)
      else if negb (is_no (is_vertical e1)) then tpt (inter (fst b1) (fst b2)) ALL
      else if negb (is_no (is_horizontal e1)) then tpt (fst b2) (snd b1)
      else
        let a := (snd (snd e1) -' snd (fst e1)) /' (fst (snd e1) -' fst (fst e1)) in
        let b := snd (fst e1) in
        tpt (fst b2) (b +' a *' (fst b2 -' fst (fst e1)))
    else if negb (is_no (is_horizontal e2)) then
      if negb (is_no (e_degenerated e1)) then tpt (fst b1) (inter (snd b1) (snd b2))
      else if negb (is_no (is_horizontal e1)) then tpt ALL (inter (snd b1) (snd b2))
      else if negb (is_no (is_vertical e1)) then tpt (fst b1) (snd b2)
      else
        let a := (snd (snd e1) -' snd (fst e1)) /' (fst (snd e1) -' fst (fst e1)) in
        let b := snd (fst e1) in
        tpt (fst (fst e1) +' (snd b2 -' b) /' a) (snd b2)
    else
      let x1 := fst (fst e1) in let y1 := snd (fst e1) in
      let x2 := fst (snd e1) in let y2 := snd (snd e1) in
      let x3 := fst (fst e2) in let y3 := snd (fst e2) in
      let x4 := fst (snd e2) in let y4 := snd (snd e2) in
      let a := x1 *' y2 -' y1 *' x2 in
      let b := x3 *' y4 -' y3 *' x4 in
      let c := (x1 -' x2) *' (y3 -' y4) -' (y1 -' y2) *' (x3 -' x4) in
      tpt ((a *' (x3 -' x4) -' (x1 -' x2) *' b) /' c) ((a *' (y3 -' y4) -' (y1 -' y2) *' b) /' c).
  (** proj_intersection, codac_ThickEdge.cpp 177-248; the edges are expected to exist (assertion, line 179) *)
  Definition proj_intersection (e1 e2 : tedge) : tpoint :=
    if is_no (e_degenerated e1) && negb (is_no (e_degenerated e2)) then proj0 e2 e1 else proj0 e1 e2.
  (** operator&(ThickEdge), codac_ThickEdge.cpp 171-175 *)
  Definition e_inter (e1 e2 : tedge) : tpoint :=
    let p := proj_intersection e1 e2 in
    tpt (inter (inter (fst p) (fst (e_box e1))) (fst (e_box e2)))
        (inter (inter (snd p) (snd (e_box e1))) (snd (e_box e2))).
  (** parallel, codac_ThickEdge.cpp 262-274 *)
  Definition parallel (e1 e2 : tedge) : bool3 :=
    if is_yes (is_vertical e1) && is_yes (is_vertical e2) then YES
    else if is_yes (is_horizontal e1) && is_yes (is_horizontal e2) then YES
    else if t_unbounded (proj_intersection e1 e2) then MAYBE else NO.

  (** Interval(lb()) for a bound, codac_ThickEdge.cpp 284-287: an infinite double gives the empty set (IBEX) *)
  Definition at_bound (o : option R) : itv := match o with Some a => pt a | None => Emp end.
  (** lb() and ub() of a component; the bounds of an empty component are not used; codac_ThickEdge.cpp 284-287 *)
  Definition olb (i : itv) : option R := match i with Itv l _ => l | Emp => None end.
  (** codac_ThickEdge.cpp 284-287 *)
  Definition oub (i : itv) : option R := match i with Itv _ u => u | Emp => None end.
  (** lines 281-282 of codac_ThickEdge.cpp and 182-186 of codac_ThickPoint.cpp: the bound, or the whole interval when
      it is infinite *)
  Definition side_lb (i : itv) : itv := match i with Itv (Some a) _ => pt a | _ => i end.
  (** codac_ThickEdge.cpp 281-282 *)
  Definition side_ub (i : itv) : itv := match i with Itv _ (Some b) => pt b | _ => i end.
  (** ThickEdge::push, codac_ThickEdge.cpp 276-288 *)
  Definition box_edges (x : tpoint) : list tedge :=
    let l := at_bound (olb (fst x)) in let u := at_bound (oub (fst x)) in
    let yl := side_lb (snd x) in let yu := side_ub (snd x) in
    [edge (tpt l yl) (tpt u yl); edge (tpt u yl) (tpt u yu); edge (tpt u yu) (tpt l yu); edge (tpt l yu) (tpt l yl)].
  (** operator&(IntervalVector), codac_ThickEdge.cpp 136-169; [x] is not empty (assertion, line 139).
      IntervalVector::is_flat: a component is degenerated *)
  Definition e_inter_box (e : tedge) (x : tpoint) : tpoint :=
    if is_degenerated (fst (e_box e)) || is_degenerated (snd (e_box e)) then t_inter x (e_box e)
    else
      let i := if t_subset (fst e) x then fst e else t_none in
      let i := if t_subset (snd e) x then t_hull i (snd e) else i in
      if t_subset (fst e) x && t_subset (snd e) x then i
      else fold_left (fun i b => t_hull i (e_inter e b)) (box_edges x) i.

  (** ** codac_Polygon.cpp and codac_ConvexPolygon.cpp *)

  (** A polygon: the vector of its vertices (m_v_floating_pts, codac_Polygon.h); codac_Polygon.h 70 *)
  Definition polygon : Type := list pt2.
  (** edges, codac_Polygon.cpp 65-72 *)
  Definition edges (p : polygon) : list tedge :=
    match p with
    | [] => []
    | v :: r => map (fun q => edge (tvec (fst q)) (tvec (snd q))) (combine p (r ++ [v]))
    end.
  (** box, codac_Polygon.cpp 85-91 *)
  Definition poly_box (p : polygon) : tpoint := fold_left (fun b v => t_hull b (tvec v)) p t_none.

  (** the loop of ConvexPolygon::contains, codac_ConvexPolygon.cpp 149-174; [b] is box(), [a] the counter.
      Line 161: [e[1].intersects(lb)] *)
  Fixpoint ray_loop (es : list tedge) (ray : tedge) (b p prev : tpoint) (a : nat) : bool3 :=
    match es with
    | [] => if Nat.odd a then YES else NO
    | e :: es =>
        if negb (intersects (snd (e_box e)) (snd p)) then ray_loop es ray b p prev a
        else
          let q := e_inter e ray in
          if t_empty q then ray_loop es ray b p q a
          else if intersects (fst q) (fst p) then MAYBE
          else if intersects (snd q) (at_bound (olb (snd b))) || intersects (snd q) (at_bound (oub (snd b)))
          then ray_loop es ray b p prev a
          else if intersects (fst prev) (fst q) then ray_loop es ray b p prev a
          else ray_loop es ray b p q
                 (match olb (fst q), oub (fst p) with Some l, Some u => if Rltb u l then S a else a | _, _ => a end)
    end.
  (** the ray of codac_ConvexPolygon.cpp 145; the sum of doubles is exact *)
  Definition ray_of (b p : tpoint) : tedge :=
    edge p (tpt (match oub (fst b) with Some u => pt (u + 1) | None => Emp end) (snd p)).
  (** ConvexPolygon::contains, codac_ConvexPolygon.cpp 130-175 *)
  Definition poly_contains (v : polygon) (p : tpoint) : bool3 :=
    let b := poly_box v in
    if t_empty p || match v with [] => true | _ => false end then NO
    else if t_empty (t_inter p b) then NO
    else
      let es := edges v in
      let ray := ray_of b p in
      ray_loop es ray b p (e_inter (last es (t_none, t_none)) ray) 0.

  (** ThickPoint::push(box, points), codac_ThickPoint.cpp 177-192 *)
  Definition box_vertices (x : tpoint) : list tpoint :=
    let xl := side_lb (fst x) in let xu := side_ub (fst x) in
    let yl := side_lb (snd x) in let yu := side_ub (snd x) in
    [tpt xl yl; tpt xu yl; tpt xu yu; tpt xl yu].
  (** ConvexPolygon::fast_intersection, codac_ConvexPolygon.cpp 293-321 *)
  Definition fast_intersection (v : polygon) (x : tpoint) : tpoint :=
    if match v with [] => true | _ => false end || t_empty x then t_none
    else
      let r := t_inter x (poly_box v) in
      if t_empty r then r
      else
        let i := fold_left (fun i e => t_hull i (e_inter_box e r)) (edges v) t_none in
        fold_left (fun i q => if is_no (poly_contains v q) then i else t_hull i q) (box_vertices r) i.

  (** ** codac_GrahamScan.cpp *)

  (** OrientationInterval, codac_GrahamScan.h 21 *)
  Inductive orientation_t : Type := CLOCKWISE | COUNTERCLOCKWISE | UNDEFINED.
  (** GrahamScan::orientation, codac_GrahamScan.cpp 137-144, on points *)
  Definition orientation (p0 p1 p2 : tpoint) : orientation_t :=
    let ax := fst p1 -' fst p0 in let ay := snd p1 -' snd p0 in
    let bx := fst p2 -' fst p0 in let by_ := snd p2 -' snd p0 in
    let cp := ax *' by_ -' ay *' bx in
    if contains cp 0 then UNDEFINED
    else match olb cp with Some l => if Rltb 0 l then COUNTERCLOCKWISE else CLOCKWISE | None => CLOCKWISE end.
  (** GrahamScan::dist, codac_GrahamScan.cpp 132-135 *)
  Definition dist (p1 p2 : tpoint) : itv := g_sqr G (fst p1 -' fst p2) +' g_sqr G (snd p1 -' snd p2).
  (** ThickPointsSorter::operator(), codac_GrahamScan.cpp 153-165 *)
  Definition sorter (p0 p1 p2 : pt2) : bool :=
    match orientation (tvec p0) (tvec p1) (tvec p2) with
    | COUNTERCLOCKWISE => true
    | UNDEFINED =>
        match oub (dist (tvec p0) (tvec p1)), olb (dist (tvec p0) (tvec p2)) with
        | Some u, Some l => Rleb u l
        | _, _ => false
        end
    | CLOCKWISE => false
    end.
  (** std::sort, codac_GrahamScan.cpp 65, as an insertion sort.  It compares no element with itself when the
      elements are distinct; the standard does not promise that (see C48). *)
  Fixpoint insert (lt : pt2 -> pt2 -> bool) (p : pt2) (l : list pt2) : list pt2 :=
    match l with [] => [p] | q :: r => if lt p q then p :: l else q :: insert lt p r end.
  (** the whole sort, codac_GrahamScan.cpp 65 *)
  Definition isort (lt : pt2 -> pt2 -> bool) (l : list pt2) : list pt2 := fold_right (insert lt) [] l.
  (** the bottom-most, then left-most point, codac_GrahamScan.cpp 39-56: the point and the other ones *)
  Fixpoint extract_min (p : pt2) (l : list pt2) : pt2 * list pt2 :=
    match l with
    | [] => (p, [])
    | q :: r =>
        if Rltb (snd q) (snd p) || (Reqb (snd p) (snd q) && Rltb (fst q) (fst p))
        then let '(m, o) := extract_min q r in (m, p :: o)
        else let '(m, o) := extract_min p r in (m, q :: o)
    end.
  (** codac_GrahamScan.cpp 73-82: of the points with the same angle, the last one *)
  Fixpoint keep_last (p0 : pt2) (l : list pt2) : list pt2 :=
    match l with
    | [] => []
    | p :: r =>
        match r with
        | [] => [p]
        | q :: _ => if is_yes (aligned (tvec p0) (tvec p) (tvec q)) then keep_last p0 r else p :: keep_last p0 r
        end
    end.
  (** codac_GrahamScan.cpp 95-103: the [while] loop on the stack (top first), then the push *)
  Fixpoint pop_cw (p : pt2) (s : list pt2) : list pt2 :=
    match s with
    | t :: r =>
        match r with
        | n :: _ => match orientation (tvec n) (tvec t) (tvec p) with CLOCKWISE => pop_cw p r | _ => s end
        | [] => s
        end
    | [] => s
    end.
  (** one iteration, codac_GrahamScan.cpp 95-103 *)
  Definition scan_pt (s : list pt2) (p : pt2) : list pt2 := p :: pop_cw p s.
  (** GrahamScan::convex_hull, codac_GrahamScan.cpp 23-113.  The array after the loop 73-82 is made of the [m] kept
      points, then of the points that were there before: the third point that is pushed on the stack (line 91) is
      one of these when [m] is 2. *)
  Definition convex_hull (pts : list pt2) : list pt2 :=
    match remove_identical pts with
    | v0 :: ((_ :: _ :: _ :: _) as r) =>
        let '(p0, others) := extract_min v0 r in
        let sorted := isort (sorter p0) (p0 :: others) in
        let kept := match sorted with f :: o => f :: keep_last p0 o | [] => [] end in
        let arr := kept ++ skipn (length kept) sorted in
        match arr with
        | a :: b :: c :: _ => rev (fold_left scan_pt (skipn 3 kept) [c; b; a])
        | _ => []
        end
    | l => l
    end.

  (** the vertices of the box of a thick point, without repetition: bounds_pts, codac_ThickPoint.cpp 87-100; for a
      bounded point *)
  Definition bounds_pts (p : tpoint) : list pt2 :=
    match p with
    | (Itv (Some a) (Some b), Itv (Some c) (Some d)) => remove_identical [(a, c); (a, d); (b, c); (b, d)]
    | _ => []
    end.
End Geometry.
