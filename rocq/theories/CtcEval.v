(** * Model of [codac::CtcEval] (/repo/src/core/contractors/dyn/codac_CtcEval.cpp) and of the
      evaluations with derivative it uses *)
From Coq Require Import Reals Lra Bool List Arith.
From Verif Require Import Itv Arith Tube TubeOps CtcDeriv.
Import ListNotations.
Open Scope R_scope.

(** Parameters of CtcEval: the arithmetic, the intersection of the polygon of a slice with a box
    (ConvexPolygon::fast_intersection on Slice::polygon(v), called in codac_Slice.cpp 231-236 and
    312-318: not modelled, any function; see [pint_ok] for what is expected of it),
    m_preserve_slicing, m_propagation_enabled, m_restricted_tdomain. *)
Record eval_cfg := mkE {
  e_arith : arith;
  e_pint : slice -> slice -> itv -> itv -> itv * itv;
  e_preserve : bool;
  e_propag : bool;
  e_rt : itv }.

(** Slice::interpol(t, v), codac_Slice.cpp 216-237, for an interval inside the slice (assert 219) *)
Definition slice_interpol (c : eval_cfg) (s sv : slice) (t : itv) : itv :=
  let A := e_arith c in
  if lb_lt t (s_lb s) || ub_gt t (s_ub s) then ALL
  else if is_subset (s_dom s) t then s_cod s
  else if is_degenerated t then
    inter (isub A (s_out s) (imul A (isub A (pt (s_ub s)) t) (s_cod sv)))
          (iadd A (s_in s) (imul A (isub A t (pt (s_lb s))) (s_cod sv)))
  else snd (e_pint c s sv (inter (s_dom s) t) (s_cod s)).

(** Tube::interpol(Interval t, v), codac_Tube.cpp 751-769, t = [a,b]: from slice(a) while
    [lb < b] *)
Fixpoint interpol_loop (c : eval_cfg) (x v : tube) (a b : R) : itv :=
  match x, v with
  | s :: r, sv :: rv =>
      if Rltb (s_lb s) b
      then hull (slice_interpol c s sv (inter (bnd a b) (s_dom s))) (interpol_loop c r rv a b)
      else Emp
  | _, _ => Emp
  end.
(** codac_Tube.cpp 751-769 *)
Definition interpol (c : eval_cfg) (x v : tube) (a b : R) : itv :=
  interpol_loop c (skipn (time_to_index a x) x) (skipn (time_to_index a v) v) a b.

(** Tube::interpol(double t, v), codac_Tube.cpp 737-749 *)
Definition interpol_t (c : eval_cfg) (x v : tube) (t : R) : itv :=
  match nth_error x (time_to_index t x) with
  | Some s => if Reqb (s_lb s) t || Reqb (s_ub s) t then slice_eval s t else interpol c x v t t
  | None => ALL
  end.

(** Slice::invert(y, v, search), codac_Slice.cpp 277-320 *)
Definition slice_invert_v (c : eval_cfg) (s sv : slice) (y search : itv) : itv :=
  if is_empty search then Emp
  else if lb_lt search (s_lb s) || ub_gt search (s_ub s) then ALL
  else if itv_eqb (inter (s_dom s) search) (s_dom s) && is_subset (s_cod s) y then s_dom s
  else if itv_eqb search (pt (s_lb s)) then if intersects y (s_in s) then pt (s_lb s) else Emp
  else if itv_eqb search (pt (s_ub s)) then if intersects y (s_out s) then pt (s_ub s) else Emp
  else if itv_eqb (s_cod sv) ALL then if intersects y (s_cod s) then inter search (s_dom s) else Emp
  else fst (e_pint c s sv search y).

(** Tube::invert(y, v, search), codac_Tube.cpp 843-867, search = [a,b] *)
Fixpoint invert_v_loop (c : eval_cfg) (x v : tube) (y : itv) (a b : R) : itv :=
  match x, v with
  | s :: r, sv :: rv =>
      if Rltb (s_lb s) b
      then hull (slice_invert_v c s sv y (inter (bnd a b) (s_dom s))) (invert_v_loop c r rv y a b)
      else Emp
  | _, _ => Emp
  end.
(** codac_Tube.cpp 843-867 *)
Definition invert_v (c : eval_cfg) (x v : tube) (y search : itv) : itv :=
  match search with
  | Emp => Emp
  | Itv (Some a) (Some b) =>
      if Rltb a (t0 x) || Rltb (tf x) b then ALL
      else invert_v_loop c (skipn (time_to_index a x) x) (skipn (time_to_index a v) v) y a b
  | _ => ALL
  end.

(** Tube::gate_exists, codac_Tube.cpp 589-592 *)
Definition gate_exists (x : tube) (t : R) : bool :=
  match nth_error x (time_to_index t x) with
  | Some s => Reqb (s_lb s) t || Reqb t (tf x)
  | None => false
  end.

(** CtcEval::contract(double t, z, y, w), codac_CtcEval.cpp 79-137; the instant is expected in the
    domain of the tubes (assert 82).  Lines 108-129: the two local contractions use a CtcDeriv
    without restricted domain. *)
Definition ctc_eval_t (c : eval_cfg) (t : R) (z : itv) (y w : tube) : itv * tube * tube :=
  let A := e_arith c in
  if is_empty z || tube_is_empty y || tube_is_empty w then (Emp, tube_set Emp y, tube_set Emp w)
  else
    let merge := e_preserve c && negb (gate_exists y t) in
    let z := inter z (interpol_t c y w t) in
    let y := tube_set_at z t y in
    let w := sample t w in
    let '(y, w) :=
      if e_propag c then (deriv_tube A (e_rt c) true true w y, w)
      else if merge then
        let k := time_to_index t y in
        (remove_gate t (deriv_slice A ALL w (deriv_slice A ALL w y (k - 1)) k), remove_gate t w)
      else (y, w) in
    if is_empty z || tube_is_empty y then (Emp, tube_set Emp y, w) else (z, y, w).

(** Lines 190-205 and 237-243: the first front, when the gate [g] misses [z] *)
Definition first_front (g z : itv) : itv :=
  let f := inter g z in
  if is_empty f then
    match z with
    | Itv (Some a) (Some b) =>
        match ubound g with
        | Some u => if Rltb u a then pt a else pt b
        | None => pt b
        end
    | Itv (Some a) None =>
        match ubound g with Some u => if Rltb u a then pt a else Emp | None => Emp end
    | Itv None (Some b) => pt b
    | _ => Emp
    end
  else f.

(** Lines 207-222: forward propagation; the list [l_gates] has the last front first *)
Fixpoint eval_fwd (A : arith) (y w : tube) (z : itv) (b : R) (front : itv) (l : list itv) : list itv :=
  match y, w with
  | s :: r, sw :: rw =>
      if Rltb (s_lb s) b then
        let front := iadd A front (imul A (pt (s_ub s - s_lb s)) (s_cod sw)) in
        let front := hull front z in
        let front := inter front (s_out s) in
        eval_fwd A r rw z b front (front :: l)
      else l
  | _, _ => l
  end.

(** Lines 246-262: backward propagation from slice [k] down, while the slice is after [a] *)
Fixpoint eval_bwd (A : arith) (k : nat) (w : tube) (z : itv) (a : R) (front : itv) (l : list itv) (y : tube) : tube :=
  match nth_error y k, nth_error w k with
  | Some s, Some sw =>
      if Rleb a (s_lb s) then
        let front := isub A front (imul A (pt (s_ub s - s_lb s)) (s_cod sw)) in
        let front := hull front z in
        let front := inter front (s_in s) in
        let l := tl l in
        let y := set_input_gate k (hull (hd Emp l) front) true y in
        let y := deriv_gates A w y k in
        match k with O => y | S k' => eval_bwd A k' w z a front l y end
      else y
  | _, _ => y
  end.

(** y.slice(previous_float(t)): the slice that ends at [t], or else contains it (no double is
    strictly between previous_float(t) and t); codac_CtcEval.cpp 234-235 *)
Fixpoint index_before (t : R) (x : tube) : nat :=
  match x with
  | [] => 0%nat
  | s :: r => if Rleb t (s_ub s) then 0%nat else match r with [] => 0%nat | _ => S (index_before t r) end
  end.

(** Lines 186-262 *)
Definition eval_fronts (A : arith) (a b : R) (z : itv) (y w : tube) : tube :=
  let i := time_to_index a y in
  let g0 := match nth_error y i with Some s => s_in s | None => Emp end in
  let front := first_front g0 z in
  let l := eval_fwd A (skipn i y) (skipn i w) z b front [front] in
  let j := index_before b y in
  let g1 := match nth_error y j with Some s => s_out s | None => Emp end in
  let front := first_front g1 z in
  let y := set_output_gate j (hull (hd Emp l) front) true y in
  eval_bwd A j w z a front l y.

(** Lines 276-301: one gate to remove.  The slice *after* the gate and the next one are
    contracted, then the slices around the gate are merged. *)
Definition eval_unsample (A : arith) (yw : tube * tube) (u : R) : tube * tube :=
  let '(y, w) := yw in
  let k := time_to_index u y in
  let y := deriv_slice A ALL w y k in
  let y := if (S k <? length y)%nat then deriv_slice A ALL w y (S k) else y in
  (remove_gate u y, remove_gate u w).

(** Lines 306-321 *)
Definition unclip_slice (y : tube) (k : nat) : tube :=
  let y := match nth_error y k with Some s => set_envelope k (unclip (s_cod s)) true y | None => y end in
  let y := match nth_error y k with Some s => set_input_gate k (unclip (s_in s)) true y | None => y end in
  match nth_error y k with Some s => set_output_gate k (unclip (s_out s)) true y | None => y end.
(** loop of codac_CtcEval.cpp 306-321 *)
Definition unclip_tube (y : tube) : tube := fold_left unclip_slice (seq 0 (length y)) y.

(** CtcEval::contract(Interval t, z, y, w), codac_CtcEval.cpp 139-333.  The result of the
    evaluation at the bounds (175-176) reads the tube [w] before it is sampled. *)
Definition clip : itv := Itv (Some (- binf)) (Some binf).
(** codac_CtcEval.cpp 166-302 *)
Definition ctc_eval_body (c : eval_cfg) (a b : R) (z : itv) (y w : tube) : itv * itv * tube * tube :=
  let A := e_arith c in
  let rm := if e_preserve c then (if gate_exists y a then [] else [a]) ++ (if gate_exists y b then [] else [b])
            else [] in
  let y := tube_set_at (interpol_t c y w a) a y in
  let w := sample a w in
  let y := tube_set_at (interpol_t c y w b) b y in
  let w := sample b w in
  let y := eval_fronts A a b z y w in
  let y := if e_propag c then deriv_tube A (e_rt c) true true w y else y in
  let t := inter (bnd a b) (invert_v c y w z (bnd a b)) in
  let z := match t with Itv (Some a) (Some b) => inter z (interpol c y w a b) | _ => z end in
  let '(y, w) := fold_left (eval_unsample A) rm (y, w) in
  (t, z, y, w).
(** codac_CtcEval.cpp 139-333 *)
Definition ctc_eval (c : eval_cfg) (t z : itv) (y w : tube) : itv * itv * tube * tube :=
  let A := e_arith c in
  if is_empty t || is_empty z || tube_is_empty y then (Emp, Emp, tube_set Emp y, tube_set Emp w)
  else if is_degenerated t then
    match t with
    | Itv (Some u) _ => let '(z, y, w) := ctc_eval_t c u z y w in (t, z, y, w)
    | _ => (t, z, y, w)
    end
  else
    let y := tube_assign_itv inter y clip in
    let w := tube_assign_itv inter w clip in
    let t := inter t (bnd (t0 y) (tf y)) in
    let t := inter t (invert_v c y w z t) in
    match t with
    | Itv (Some a) (Some b) =>
        if Reqb a b then let '(z, y, w) := ctc_eval_t c a z y w in (t, z, y, w)
        else
          let z := inter z (interpol c y w a b) in
          let '(t, z, y, w) := if is_empty z then (t, z, y, w) else ctc_eval_body c a b z y w in
          let y := unclip_tube y in
          if is_empty t || is_empty z || tube_is_empty y then (Emp, Emp, tube_set Emp y, w)
          else (t, z, y, w)
    | _ => (Emp, Emp, tube_set Emp y, w)
    end.

(** CtcEval::contract(t, z, y) without derivative, codac_CtcEval.cpp 375-393 *)
Definition ctc_eval_noderiv (t z : itv) (y : tube) : itv * itv :=
  if is_empty t || is_empty z || tube_is_empty y then (Emp, Emp)
  else
    let vt := invert_list y z t in
    (inter t (fold_left hull vt Emp), fold_left (fun z ti => inter z (eval_itv y ti)) vt z).

(** ** vectors of tubes, without derivative *)
(** application of a function to the components of two vectors, codac_TubeVector.cpp 530-552 *)
Definition map2 {A B C} (f : A -> B -> C) (l : list A) (m : list B) : list C := map (fun p => f (fst p) (snd p)) (combine l m).
(** The subsets gathered by the loops of TubeVector::invert (macro_invert_subsets, codac_TubeVector.cpp
    530-552) from the inversions over the successive slices; [cur] is the variable [ti]. *)
Fixpoint windows (locs : list itv) (cur : itv) : list itv :=
  match locs with
  | [] => if is_empty cur then [] else [cur]
  | l :: r => if is_empty l && negb (is_empty cur) then cur :: windows r Emp else windows r (hull cur l)
  end.
(** The inversion over each of the slices visited (534-537 and 545-549): the intersection over the
    components.  Simplification: the components have the same slicing, otherwise [v_s[i]] may be null. *)
Fixpoint vinvert_locs (x0 : tube) (xs : list tube) (z : list itv) (a b : R) : list itv :=
  match x0 with
  | [] => []
  | s :: r =>
      if Rleb (s_lb s) b then
        fold_left inter (map2 (fun s zi => slice_invert s zi (inter (bnd a b) (s_dom s))) (s :: map (hd s) xs) z) ALL
        :: vinvert_locs r (map (@tl slice) xs) z a b
      else []
  end.
(** TubeVector::invert(y, v_t, search), codac_TubeVector.cpp 509-560 *)
Definition vinvert_list (ys : list tube) (z : list itv) (search : itv) : list itv :=
  match ys, search with
  | x0 :: xs, Itv (Some a) (Some b) =>
      if Rltb a (t0 x0) || Rltb (tf x0) b then [ALL]
      else windows (vinvert_locs (skipn (time_to_index a x0) x0) (map (fun x => skipn (time_to_index a x) x) xs) z a b) Emp
  | _, Emp => []
  | _, _ => [ALL]
  end.
(** CtcEval::contract(t, z, y) for vectors, codac_CtcEval.cpp 395-417 *)
Definition ctc_eval_vec (t : itv) (z : list itv) (ys : list tube) : itv * list itv :=
  if is_empty t || existsb is_empty z || existsb tube_is_empty ys then (Emp, map (fun _ => Emp) z)
  else
    let vt := vinvert_list ys z t in
    (inter t (fold_left hull vt Emp),
     map2 (fun zi y => fold_left (fun z ti => inter z (eval_itv y ti)) vt zi) z ys).
