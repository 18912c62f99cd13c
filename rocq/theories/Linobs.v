(** * Model of CtcLinobs and CtcChain

    /repo/src/core/contractors/dyn/codac_CtcLinobs.cpp and codac_CtcChain.cpp.  The arithmetic of matrices and boxes is
    given by [arith] (IBEX); the exponential of a matrix by [expo] (Eigen, without rounding); the polygons by the
    operations of [polys] (codac_ConvexPolygon.cpp, codac_polygon_arithmetic.cpp).  The assertions on the slicings are
    hypotheses of the theorems, the assertion of ConvexPolygon(box) on empty boxes (codac_ConvexPolygon.cpp 42) is not
    modelled. *)

From Coq Require Import Reals Bool List Arith.
Import ListNotations.
From Verif Require Import Itv Tube TubeOps Arith.
Open Scope R_scope.

(** ibex::Vector and ibex::Matrix of size 2, used in codac_CtcLinobs.cpp 22-24 *)
Definition vec : Type := (R * R)%type.
(** the rows of the matrix: ibex::Matrix, codac_CtcLinobs.cpp 22-24 *)
Definition mat : Type := (vec * vec)%type.
(** ibex::IntervalVector of size 2, codac_CtcLinobs.cpp 139 *)
Definition ivec : Type := (itv * itv)%type.
(** ibex::IntervalMatrix of size 2x2, codac_CtcLinobs.cpp 25 *)
Definition imat : Type := (ivec * ivec)%type.
(** application to the entries, codac_CtcLinobs.cpp 36-37 *)
Definition map_mat {A B} (f : A -> B) (m : (A * A) * (A * A)) : (B * B) * (B * B) :=
  ((f (fst (fst m)), f (snd (fst m))), (f (fst (snd m)), f (snd (snd m)))).
(** application to the entries of two matrices, codac_CtcLinobs.cpp 36-37 *)
Definition map2_mat {A B C} (f : A -> B -> C) (m : (A * A) * (A * A)) (n : (B * B) * (B * B)) : (C * C) * (C * C) :=
  ((f (fst (fst m)) (fst (fst n)), f (snd (fst m)) (snd (fst n))), (f (fst (snd m)) (fst (snd n)), f (snd (snd m)) (snd (snd n)))).
(** -A, codac_CtcLinobs.cpp 253 *)
Definition mneg (m : mat) : mat := map_mat Ropp m.
(** exp_At(A, t), codac_CtcLinobs.cpp 22-41: the hull of the exponentials at the two bounds of [t] *)
Definition exp_at (expo : mat -> R -> mat) (A : mat) (lo hi : R) : imat :=
  map2_mat hull (map2_mat hull (map_mat (fun _ => Emp) A) (map_mat pt (expo A lo))) (map_mat pt (expo A hi)).

(** The product of an interval and a matrix, of IBEX, in codac_CtcLinobs.cpp 246, 253, 260 *)
Definition scal_mat (Ar : arith) (k : itv) (M : imat) : imat := map_mat (imul Ar k) M.
(** The product of a matrix and a vector, of IBEX, in codac_CtcLinobs.cpp 246, 253, 260 *)
Definition mat_vec (Ar : arith) (M : imat) (v : ivec) : ivec :=
  (iadd Ar (imul Ar (fst (fst M)) (fst v)) (imul Ar (snd (fst M)) (snd v)),
   iadd Ar (imul Ar (fst (snd M)) (fst v)) (imul Ar (snd (snd M)) (snd v))).
(** u*b, of IBEX, in codac_CtcLinobs.cpp 246, 253, 260 *)
Definition scal_vec (Ar : arith) (u : itv) (b : vec) : ivec := (imul Ar u (pt (fst b)), imul Ar u (pt (snd b))).

(** The operations on ConvexPolygon: ConvexPolygon(box), operator&, IntervalMatrix*ConvexPolygon, ConvexPolygon+IntervalVector,
    ConvexPolygon-IntervalVector, simplify, box: codac_ConvexPolygon.cpp 38-46, 192-257; codac_polygon_arithmetic.cpp 24-68,
    122-125; codac_Polygon.cpp 85-91 *)
Record polys : Type := {
  po : Type;
  p_of_box : ivec -> po;
  p_inter : po -> po -> po;
  p_mul : imat -> po -> po;
  p_add : po -> ivec -> po;
  p_sub : po -> ivec -> po;
  p_simplify : po -> po;
  p_box : po -> ivec }.

(** the members of CtcLinobs, codac_CtcLinobs.h 62-65 and codac_DynCtc.h 120, with the operations that are used *)
Record linobs : Type := {
  l_A : mat;
  l_b : vec;
  l_restricted : itv;
  l_ar : arith;
  l_expo : mat -> R -> mat;
  l_po : polys }.

Section LINOBS.
Variable c : linobs.
(** the polygons of this object, codac_CtcLinobs.cpp 145-146 *)
Notation P := (po (l_po c)).

(** CtcLinobs::ctc_fwd_gate, codac_CtcLinobs.cpp 243-248 *)
Definition fwd_gate (p_k p_km1 : P) (dt : R) (u : itv) : P :=
  p_simplify _ (p_inter _ p_k
    (p_add _ (p_mul _ (exp_at (l_expo c) (l_A c) dt dt) p_km1)
             (mat_vec (l_ar c) (scal_mat (l_ar c) (pt dt) (exp_at (l_expo c) (l_A c) 0 dt)) (scal_vec (l_ar c) u (l_b c))))).
(** CtcLinobs::ctc_bwd_gate, codac_CtcLinobs.cpp 250-255 *)
Definition bwd_gate (p_k p_kp1 : P) (dt : R) (u : itv) : P :=
  p_simplify _ (p_inter _ p_k
    (p_sub _ (p_mul _ (exp_at (l_expo c) (mneg (l_A c)) dt dt) p_kp1)
             (mat_vec (l_ar c) (scal_mat (l_ar c) (pt dt) (exp_at (l_expo c) (mneg (l_A c)) 0 dt)) (scal_vec (l_ar c) u (l_b c))))).
(** CtcLinobs::polygon_envelope, codac_CtcLinobs.cpp 257-261 *)
Definition polygon_envelope (p_k : P) (dt : R) (u : itv) : P :=
  p_add _ (p_mul _ (exp_at (l_expo c) (l_A c) 0 dt) p_k)
          (mat_vec (l_ar c) (scal_mat (l_ar c) (bnd 0 dt) (exp_at (l_expo c) (l_A c) 0 dt)) (scal_vec (l_ar c) u (l_b c))).

(** what the loops modify: x1, x2 and v_p_k, codac_CtcLinobs.cpp 122 *)
Record lstate : Type := mkL { l_x1 : tube; l_x2 : tube; l_p : list P }.
(** the polygon at rank [i] of v_p_k, codac_CtcLinobs.cpp 176; the default is not used *)
Definition p_nth (i : nat) (l : list P) : P := nth i l (p_of_box _ (Emp, Emp)).
(** an interval contains an instant: tkm1_tk.contains(v_t[j]), codac_CtcLinobs.cpp 179, 224 *)
Definition s_contains (s : slice) (t : R) : bool := Rleb (s_lb s) t && Rleb t (s_ub s).

(** An iteration of the forward loop, codac_CtcLinobs.cpp 170-203, on the slice [k], i.e. [i = k+1]; [obs] are the observations (v_t, v_y) *)
Definition fwd_step (bwd : bool) (obs : list (R * ivec)) (u : tube) (st : lstate) (k : nat) : lstate :=
  match nth_error (l_x1 st) k, nth_error u k with
  | Some s, Some su =>
      if intersects (s_dom s) (l_restricted c) then
        let dt := s_ub s - s_lb s in
        let p0 := fwd_gate (p_nth (S k) (l_p st)) (p_nth k (l_p st)) dt (s_cod su) in
        let p1 := fold_left (fun p o => if s_contains s (fst o) then fwd_gate p (p_of_box _ (snd o)) (s_ub s - fst o) (s_cod su) else p) obs p0 in
        let ps := upd (S k) (fun _ => p1) (l_p st) in
        let x1 := set_output_gate k (fst (p_box _ p1)) true (l_x1 st) in
        let x2 := set_output_gate k (snd (p_box _ p1)) true (l_x2 st) in
        if bwd then mkL x1 x2 ps
        else
          let e := p_box _ (polygon_envelope (p_nth k ps) dt (s_cod su)) in
          mkL (set_envelope k (fst e) true x1) (set_envelope k (snd e) true x2) ps
      else st
  | _, _ => st
  end.
(** An iteration of the backward loop, codac_CtcLinobs.cpp 215-239, on the slice [k], i.e. [i = k] *)
Definition bwd_step (obs : list (R * ivec)) (u : tube) (st : lstate) (k : nat) : lstate :=
  match nth_error (l_x1 st) k, nth_error u k with
  | Some s, Some su =>
      if intersects (s_dom s) (l_restricted c) then
        let dt := s_ub s - s_lb s in
        let p0 := bwd_gate (p_nth k (l_p st)) (p_nth (S k) (l_p st)) dt (s_cod su) in
        let p1 := fold_left (fun p o => if s_contains s (fst o) then bwd_gate p (p_of_box _ (snd o)) (fst o - s_lb s) (s_cod su) else p) obs p0 in
        let ps := upd k (fun _ => p1) (l_p st) in
        let x1 := set_input_gate k (fst (p_box _ p1)) true (l_x1 st) in
        let x2 := set_input_gate k (snd (p_box _ p1)) true (l_x2 st) in
        let e := p_box _ (polygon_envelope p1 dt (s_cod su)) in
        mkL (set_envelope k (fst e) true x1) (set_envelope k (snd e) true x2) ps
      else st
  | _, _ => st
  end.
(** box_domain, codac_CtcLinobs.cpp 139 *)
Definition box_domain : itv := bnd (-9999) 9999.
(** v_p_k, codac_CtcLinobs.cpp 145-159: the polygons of the gates *)
Definition init_polys (x1 x2 : tube) : list P :=
  match x1, x2 with
  | s1 :: _, s2 :: _ => p_of_box _ (s_in s1, s_in s2) :: map (fun q => p_of_box _ (s_out (fst q), s_out (snd q))) (combine x1 x2)
  | _, _ => []
  end.
(** CtcLinobs::contract, codac_CtcLinobs.cpp 122-241; [fwd] and [bwd] are the flags of t_propa *)
Definition linobs_contract (fwd bwd : bool) (obs : list (R * ivec)) (x1 x2 u : tube) : lstate :=
  let x1 := tube_assign_itv inter x1 box_domain in
  let x2 := tube_assign_itv inter x2 box_domain in
  let st := mkL x1 x2 (init_polys x1 x2) in
  let ks := seq 0 (length x1) in
  let st := if fwd then fold_left (fwd_step bwd obs u) ks st else st in
  if bwd then fold_left (bwd_step obs u) (rev ks) st else st.
End LINOBS.

(** CtcChain::CtcChain, codac_CtcChain.cpp 20-24, and DynCtc::m_restricted_tdomain, codac_DynCtc.h 120 *)
Definition chain_ctc (Ar : arith) (expo : mat -> R -> mat) (Po : polys) (restricted : itv) : linobs :=
  {| l_A := ((0, 1), (0, 0)); l_b := (0, 1); l_restricted := restricted; l_ar := Ar; l_expo := expo; l_po := Po |}.
(** CtcChain::contract(x, v, a, t_propa), codac_CtcChain.cpp 44-47, then CtcLinobs::contract(x1, x2, u), codac_CtcLinobs.cpp 73-79 *)
Definition chain_contract (c : linobs) (fwd bwd : bool) (x v a : tube) : tube * tube :=
  let st := linobs_contract c fwd bwd [] x v a in (l_x1 c st, l_x2 c st).
