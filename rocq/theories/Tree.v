(** * Synthesis tree of a tube

    /repo/src/core/domains/tube/codac_TubeTreeSynthesis.{h,cpp}; its use by Tube:
    /repo/src/core/domains/tube/codac_Tube.cpp 319-416, 491-510, 654-735, 771-802, 1389-1398, 1546-1552, 1600-1620.

    A node keeps caches and two flags.  A leaf refers to a slice; the reference is the index of this slice in the
    list.  The operations that change the slicing delete the tree (codac_Tube.cpp 171, 210, 547, 570, 1275, 1285),
    so that indexes and temporal domains do not change during the life of a tree.

    Simplifications: [assert]s are preconditions; the double computations of [update_integrals] and
    [partial_integral] (products, sums, [fabs], [diam]) are exact. *)
From Coq Require Import Reals Lra Bool List Arith Lia.
Import ListNotations.
From Verif Require Import Itv Arith Tube TubeOps Integral.
Open Scope R_scope.

Notation ipair := (itv * itv)%type.
(** the fields of a node, codac_TubeTreeSynthesis.h 60-66 *)
Record memo : Type := mkM {
  m_lb : R; m_ub : R;      (* m_tdomain *)
  m_vals : bool;           (* m_values_update_needed *)
  m_ints : bool;           (* m_integrals_update_needed *)
  m_cod : itv;             (* m_codomain *)
  m_cb : ipair;            (* m_codomain_bounds *)
  m_pp : ipair }.          (* m_partial_primitive *)
(** a node, codac_TubeTreeSynthesis.h 53-60 *)
Inductive tree : Type :=
| Leaf : nat -> memo -> tree                     (* m_slice_ref *)
| Node : nat -> memo -> tree -> tree -> tree.    (* m_nb_slices, m_first_subtree, m_second_subtree *)
(** the fields of the node, codac_TubeTreeSynthesis.h 61-66 *)
Definition mem (t : tree) : memo := match t with Leaf _ m => m | Node _ m _ _ => m end.
(** m_tdomain, codac_TubeTreeSynthesis.h 61 *)
Definition dom (t : tree) : itv := Itv (Some (m_lb (mem t))) (Some (m_ub (mem t))).

(** a new node: flags are true (h 65-66), intervals are default-constructed ([-oo,oo]) *)
Definition fresh_memo (a b : R) : memo := mkM a b true true ALL (ALL, ALL) (ALL, ALL).
(** constructor, 18-58, on the [n] slices from index [k]; ceil(n/2) slices in the first subtree; the temporal
    domain of a node is the hull of those of its subtrees, the first one being before the second one.
    [fuel] bounds the depth (any [fuel >= n] gives the same tree). *)
Fixpoint build (fuel k n : nat) (x : tube) : tree :=
  match fuel, n with
  | S fuel', S (S _) =>
      let n1 := Nat.div2 (S n) in
      let t1 := build fuel' k n1 x in
      let t2 := build fuel' (k + n1) (n - n1) x in
      Node n (fresh_memo (m_lb (mem t1)) (m_ub (mem t2))) t1 t2
  | _, _ => Leaf k (match nth_error x k with Some s => fresh_memo (s_lb s) (s_ub s) | None => fresh_memo 0 0 end)
  end.
(** Tube::create_synthesis_tree, codac_Tube.cpp 1600-1610 *)
Definition tree_of (x : tube) : tree := build (length x) 0 (length x) x.

(** nb_slices, 77-80 *)
Definition nb (t : tree) : nat := match t with Leaf _ _ => 1 | Node n _ _ _ => n end.
(** slice(int), 226-243: index of the slice that is reached *)
Fixpoint tslice (t : tree) (i : nat) : nat :=
  match t with
  | Leaf k _ => k
  | Node n _ t1 t2 => let mid := Nat.div2 (S n) in if Nat.ltb i mid then tslice t1 i else tslice t2 (i - mid)
  end.
(** slice(double), 251-266 *)
Fixpoint tslice_t (t : tree) (r : R) : nat :=
  match t with
  | Leaf k _ => k
  | Node _ _ t1 t2 => if Rltb r (m_ub (mem t1)) then tslice_t t1 r else tslice_t t2 r
  end.
(** time_to_index, 203-218 *)
Fixpoint tindex (t : tree) (r : R) : nat :=
  if Reqb r (m_ub (mem t)) then nb t - 1
  else match t with
       | Leaf _ _ => 0
       | Node _ _ t1 t2 => if Rltb r (m_ub (mem t1)) then tindex t1 r else tindex t2 r + nb t1
       end.

(** ** Flags *)
(** write of m_values_update_needed, codac_TubeTreeSynthesis.h 66 *)
Definition set_vals (b : bool) (m : memo) := mkM (m_lb m) (m_ub m) b (m_ints m) (m_cod m) (m_cb m) (m_pp m).
(** write of m_integrals_update_needed, codac_TubeTreeSynthesis.h 65 *)
Definition set_ints (b : bool) (m : memo) := mkM (m_lb m) (m_ub m) (m_vals m) b (m_cod m) (m_cb m) (m_pp m).
(** new values, flag cleared: codac_TubeTreeSynthesis.cpp 322-350 *)
Definition put_vals (c : itv) (p : ipair) (m : memo) := mkM (m_lb m) (m_ub m) false (m_ints m) c p (m_pp m).
(** new primitives, flag cleared: codac_TubeTreeSynthesis.cpp 352-392 *)
Definition put_ints (p : ipair) (m : memo) := mkM (m_lb m) (m_ub m) (m_vals m) false (m_cod m) (m_cb m) p.

(** request_values_update, 268-277, called on the leaf of rank [i]; the boolean says whether the node that was
    reached calls its parent (whose flag is tested twice, 270 and 275) *)
Fixpoint request_values (t : tree) (i : nat) : tree * bool :=
  match t with
  | Leaf k m => if m_vals m then (t, false) else (Leaf k (set_vals true m), true)
  | Node n m t1 t2 =>
      let '(t1', t2', up) :=
        if Nat.ltb i (nb t1) then let (t1', up) := request_values t1 i in (t1', t2, up)
        else let (t2', up) := request_values t2 (i - nb t1) in (t1, t2', up) in
      if up && negb (m_vals m) then (Node n (set_vals true m) t1' t2', true) else (Node n m t1' t2', false)
  end.
(** request_integrals_update(false), 279-288, on the leaf of rank [i] *)
Fixpoint request_ints1 (t : tree) (i : nat) : tree * bool :=
  match t with
  | Leaf k m => if m_ints m then (t, false) else (Leaf k (set_ints true m), true)
  | Node n m t1 t2 =>
      let '(t1', t2', up) :=
        if Nat.ltb i (nb t1) then let (t1', up) := request_ints1 t1 i in (t1', t2, up)
        else let (t2', up) := request_ints1 t2 (i - nb t1) in (t1, t2', up) in
      if up && negb (m_ints m) then (Node n (set_ints true m) t1' t2', true) else (Node n m t1' t2', false)
  end.
(** flag of the leaf of rank [i]; codac_TubeTreeSynthesis.h 65 *)
Fixpoint leaf_ints (t : tree) (i : nat) : bool :=
  match t with
  | Leaf _ m => m_ints m
  | Node _ _ t1 t2 => if Nat.ltb i (nb t1) then leaf_ints t1 i else leaf_ints t2 (i - nb t1)
  end.
(** request_integrals_update(true), 279-298: this leaf, then the leaves that follow (loop 290-297) *)
Definition request_ints (t : tree) (i : nat) : tree :=
  if leaf_ints t i then t
  else fold_left (fun t j => fst (request_ints1 t j)) (seq (S i) (nb t - S i)) (fst (request_ints1 t i)).

(** ** Values *)
(** [make_pair(codomain.lb(), codomain.ub())] then the gates, 327-333 *)
Definition leaf_bounds (s : slice) : ipair :=
  add_bounds (add_bounds (add_bounds (Emp, Emp) (s_cod s)) (s_in s)) (s_out s).
(** hulls of the two pairs, codac_TubeTreeSynthesis.cpp 343-345 *)
Definition pair_hull (p q : ipair) : ipair := (hull (fst p) (fst q), hull (snd p) (snd q)).
(** update_values, 322-350 *)
Fixpoint update_values (x : tube) (t : tree) : tree :=
  if m_vals (mem t) then
    match t with
    | Leaf k m => match nth_error x k with
                  | Some s => Leaf k (put_vals (s_cod s) (leaf_bounds s) m)
                  | None => t
                  end
    | Node n m t1 t2 =>
        let t1 := update_values x t1 in
        let t2 := update_values x t2 in
        Node n (put_vals (hull (m_cod (mem t1)) (m_cod (mem t2))) (pair_hull (m_cb (mem t1)) (m_cb (mem t2))) m) t1 t2
    end
  else t.

(** nodes are named by their path from the root ([true]: first subtree); codac_TubeTreeSynthesis.h 58 *)
Fixpoint sub (p : list bool) (t : tree) : tree :=
  match p, t with
  | b :: p', Node _ _ t1 t2 => sub p' (if b then t1 else t2)
  | _, _ => t
  end.
(** codomain() and codomain_bounds() of the node at [p], 139-151: a set flag updates the whole tree *)
Definition refresh (x : tube) (root : tree) (p : list bool) : tree :=
  if m_vals (mem (sub p root)) then update_values x root else root.
(** m_codomain of a node, codac_TubeTreeSynthesis.h 61 *)
Definition node_cod (root : tree) (p : list bool) : itv := m_cod (mem (sub p root)).
(** m_codomain_bounds of a node, codac_TubeTreeSynthesis.h 62 *)
Definition node_cb (root : tree) (p : list bool) : ipair := m_cb (mem (sub p root)).

(** operator()(t), 82-112, on the node [sh] at path [p]; the caches of the root may be updated.
    [Tube::operator()(double)] is [eval_t]: it only calls slice(t), see [tslice_t]. *)
Fixpoint top (x : tube) (sh : tree) (p : list bool) (root : tree) (t : itv) : itv * tree :=
  if is_empty t then (Emp, root)
  else if lb_lt t (m_lb (mem sh)) || ub_gt t (m_ub (mem sh)) then (ALL, root)
  else if is_degenerated t then (eval_t x (lo t), root)
  else match sh with
  | Leaf _ _ => let root := refresh x root p in (node_cod root p, root)
  | Node _ _ t1 t2 =>
      if itv_eqb t (dom sh) then let root := refresh x root p in (node_cod root p, root)
      else
        let i1 := inter (dom t1) t in
        let i2 := inter (dom t2) t in
        if is_degenerated i1 && negb (is_degenerated i2) then top x t2 (p ++ [false]) root i2
        else if is_degenerated i2 && negb (is_degenerated i1) then top x t1 (p ++ [true]) root i1
        else let (v1, root) := top x t1 (p ++ [true]) root i1 in
             let (v2, root) := top x t2 (p ++ [false]) root i2 in (hull v1 v2, root)
  end.

(** [codomain_bounds().first.ub() < y.lb() && codomain_bounds().second.lb() > y.ub()], line 126.  Comparisons with a
    bound of an empty interval (NaN) are false; an infinite bound of [y] makes the comparison false too. *)
Definition inside_bounds (cb : ipair) (y : itv) : bool :=
  match fst cb, snd cb, y with
  | Itv _ (Some u), Itv (Some l) _, Itv (Some yl) (Some yu) => Rltb u yl && Rltb yu l
  | _, _, _ => false
  end.
(** invert(y, search), 114-137 *)
Fixpoint tinvert (x : tube) (sh : tree) (p : list bool) (root : tree) (y search : itv) : itv * tree :=
  if is_empty search then (Emp, root)
  else if lb_lt search (m_lb (mem sh)) || ub_gt search (m_ub (mem sh)) then (ALL, root)
  else
    let root := refresh x root p in
    if negb (intersects (node_cod root p) y) then (Emp, root)
    else if inside_bounds (node_cb root p) y then (search, root)
    else match sh with
    | Leaf _ _ => (search, root)
    | Node _ _ t1 t2 =>
        let (v1, root) := tinvert x t1 (p ++ [true]) root y (inter search (dom t1)) in
        let (v2, root) := tinvert x t2 (p ++ [false]) root y (inter search (dom t2)) in (hull v1 v2, root)
    end.

(** eval(t), 153-201, for [t] non-empty inside of the domain of the root (lines 163-164 and 193-198 are then skipped) *)
Definition slice_k (x : tube) (k : nat) : slice := nth k x (slice_new 0 0 Emp).
(** codac_TubeTreeSynthesis.cpp 153-201 *)
Fixpoint teval (x : tube) (sh : tree) (p : list bool) (root : tree) (t : itv) : ipair * tree :=
  if is_degenerated t then (slice_eval_bounds (slice_k x (tslice sh (tindex sh (lo t)))) t, root)
  else match sh with
  | Leaf k _ =>
      if itv_eqb t (dom sh) then let root := refresh x root p in (node_cb root p, root)
      else (slice_eval_bounds (slice_k x k) (inter t (dom sh)), root)
  | Node _ _ t1 t2 =>
      if itv_eqb t (dom sh) then let root := refresh x root p in (node_cb root p, root)
      else
        let i1 := inter (dom t1) t in
        let i2 := inter (dom t2) t in
        if is_degenerated i1 && negb (is_degenerated i2) then teval x t2 (p ++ [false]) root i2
        else if is_degenerated i2 && negb (is_degenerated i1) then teval x t1 (p ++ [true]) root i1
        else let (v1, root) := teval x t1 (p ++ [true]) root i1 in
             let (v2, root) := teval x t2 (p ++ [false]) root i2 in (pair_hull v1 v2, root)
  end.

(** ** Integrals *)
(** lines 363-373: primitive over one slice, [sum] being the integral up to it; the caches are made of
    [Interval(integral.lb(), integral.lb()+fabs(y.lb()*dt))] and [Interval(integral.ub()-fabs(y.ub()*dt), integral.ub())].
    An empty sum or codomain gives the empty set, an unbounded one is represented by [-oo,oo] (simplification: in the
    code [-oo + fabs(-oo)] is NaN and the interval depends on the IBEX backend; no claim is made about this case). *)
Definition prim_of (integral y : itv) (dt : R) : ipair :=
  if is_empty integral then (Emp, Emp)
  else if is_unbounded integral || is_unbounded y then (ALL, ALL)
  else (bnd (lo integral) (lo integral + Rabs (lo y * dt)), bnd (hi integral - Rabs (hi y * dt)) (hi integral)).
(** the loop 361-375: primitives of all the slices *)
Fixpoint prims (sum : itv) (x : tube) : list ipair :=
  match x with
  | [] => []
  | s :: r =>
      let dt := s_ub s - s_lb s in
      prim_of (iadd exact sum (imul exact (s_cod s) (bnd 0 dt))) (s_cod s) dt
        :: prims (iadd exact sum (imul exact (s_cod s) (pt dt))) r
  end.
(** the same loop writes them in the leaves and clears their flags (369-373) *)
Fixpoint write_leaves (ps : list ipair) (t : tree) : tree :=
  match t with
  | Leaf k m => Leaf k (put_ints (nth k ps (ALL, ALL)) m)
  | Node n m t1 t2 => Node n m (write_leaves ps t1) (write_leaves ps t2)
  end.
(** part 2, 378-390, with the test of line 354 on each node *)
Fixpoint synth_ints (t : tree) : tree :=
  match t with
  | Leaf _ _ => t
  | Node n m t1 t2 =>
      if m_vals m then
        let t1 := synth_ints t1 in
        let t2 := synth_ints t2 in
        Node n (put_ints (pair_hull (m_pp (mem t1)) (m_pp (mem t2))) m) t1 t2
      else t
  end.
(** update_integrals on the root, 352-392 *)
Definition update_ints (x : tube) (root : tree) : tree :=
  if m_vals (mem root) then synth_ints (write_leaves (prims (pt 0) x) root) else root.

(** partial_primitive_bounds(t), 512-552, on a node of a tree without pending integral update (the update of line
    514 is done by [partial_integral] before) *)
Fixpoint prim_bounds (sh : tree) (t : itv) : ipair :=
  if itv_eqb t ALL then m_pp (mem sh)
  else
    let i := inter (dom sh) t in
    if is_empty i then (Emp, Emp)
    else match sh with
    | Leaf _ m => m_pp m
    | Node _ m t1 t2 =>
        if itv_eqb t (dom sh) || is_superset t (dom sh) then m_pp m
        else
          let i1 := inter (dom t1) i in
          let i2 := inter (dom t2) i in
          if is_degenerated i1 && is_degenerated i2
          then (inter (fst (m_pp (mem t1))) (fst (m_pp (mem t2))), inter (snd (m_pp (mem t1))) (snd (m_pp (mem t2))))
          else if is_degenerated i1 then prim_bounds t2 i2
          else if is_degenerated i2 then prim_bounds t1 i1
          else pair_hull (prim_bounds t1 i1) (prim_bounds t2 i2)
    end.
(** m_partial_primitive of the leaf of rank [i]; codac_TubeTreeSynthesis.h 63 *)
Fixpoint leaf_pp (t : tree) (i : nat) : ipair :=
  match t with
  | Leaf _ m => m_pp m
  | Node _ _ t1 t2 => if Nat.ltb i (nb t1) then leaf_pp t1 i else leaf_pp t2 (i - nb t1)
  end.
(** [acc |= Interval(a,b)] when [y] has the right sign, lines 433-447 and 486-500: nothing for a zero bound *)
Definition by_sign (y : R) (neg pos : itv) (acc : itv) : itv :=
  if Rltb y 0 then hull acc neg else if Rltb 0 y then hull acc pos else acc.
(** part A, 411-449: over [t] and the slice [s] of primitive [pp]; [None]: return (ALL,ALL) or (EMPTY,EMPTY) *)
Definition partA (s : slice) (pp : ipair) (tl tu : R) : ipair :=
  if is_subset (s_dom s) (bnd tl tu) then (hull Emp (fst pp), hull Emp (snd pp))
  else
    let l := lo (fst pp) in
    let h := hi (snd pp) in
    let yl := lo (s_cod s) in
    let yh := hi (s_cod s) in
    let a1 := tl - s_lb s in
    let a2 := Rmin tu (s_ub s) - s_lb s in
    let b1 := s_ub s - tl in
    let b2 := s_ub s - Rmin tu (s_ub s) in
    (by_sign yl (bnd (l - yl * b2) (l - yl * b1)) (bnd (l + yl * a1) (l + yl * a2)) Emp,
     by_sign yh (bnd (h + yh * a2) (h + yh * a1)) (bnd (h - yh * b1) (h - yh * b2)) Emp).
(** part C, 463-506 *)
Definition partC (s : slice) (pp : ipair) (tl tu : R) (acc : ipair) : ipair :=
  if is_subset (s_dom s) (bnd tl tu) then pair_hull acc pp
  else
    let l := lo (fst pp) in
    let h := hi (snd pp) in
    let yl := lo (s_cod s) in
    let yh := hi (s_cod s) in
    let a := tu - s_lb s in
    let b1 := s_ub s - s_lb s in
    let b2 := s_ub s - tu in
    (by_sign yl (bnd (l - yl * b2) (l - yl * b1)) (bnd l (l + yl * a)) (fst acc),
     by_sign yh (bnd (h + yh * a) h) (bnd (h - yh * b1) (h - yh * b2)) (snd acc)).
(** the tests on the primitive of a slice, codac_TubeTreeSynthesis.cpp 415-421, 468-474 *)
Definition pp_bad (pp : ipair) : option ipair :=
  if is_empty (fst pp) || is_empty (snd pp) then Some (Emp, Emp)
  else if is_unbounded (fst pp) || is_unbounded (snd pp) then Some (ALL, ALL) else None.
(** partial_integral([tl,tu]), 394-510, after the update of lines 398-399 *)
Definition partial_from (x : tube) (root : tree) (tl tu : R) : ipair :=
  let il := tindex root tl in
  let iu := tindex root tu in
  let kl := tslice root il in
  let ku := tslice root iu in
  let sl := slice_k x kl in
  let su := slice_k x ku in
  match pp_bad (leaf_pp root kl) with
  | Some r => r
  | None =>
      let acc := partA sl (leaf_pp root kl) tl tu in
      let acc := if Nat.ltb (S il) iu then pair_hull acc (prim_bounds root (bnd (s_ub sl) (s_lb su))) else acc in
      if Nat.eqb il iu then acc
      else match pp_bad (leaf_pp root ku) with
           | Some r => r
           | None => partC su (leaf_pp root ku) tl tu acc
           end
  end.
(** partial_integral, codac_TubeTreeSynthesis.cpp 394-510 *)
Definition tpartial (x : tube) (root : tree) (tl tu : R) : ipair * tree :=
  let root := if m_ints (mem root) then update_ints x root else root in
  (partial_from x root tl tu, root).

(** ** Histories *)
(** the setters of Slice (codac_Slice.cpp 443-518): they notify the leaf of this slice only, although a gate is
    shared with a neighbour *)
Inductive write : Type :=
| WSet (k : nat) (y : itv)
| WEnvelope (k : nat) (y : itv) (consistency : bool)
| WIn (k : nat) (g : itv) (consistency : bool)
| WOut (k : nat) (g : itv) (consistency : bool).
(** the queries, codac_Tube.cpp 654-735, 771-802, 1389-1398, 1546-1552 *)
Inductive query : Type :=
| QCodomain
| QEval (t : itv)                (* operator()(t) *)
| QInvert (y search : itv)
| QBounds (t : itv)              (* eval(t) *)
| QIntegral (tl tu : R).
(** a call of a setter (codac_Slice.cpp 443-518) or of a query *)
Inductive event : Type := Write (w : write) | Query (q : query).
(** the tube and its tree, codac_Tube.h 1220-1221 *)
Definition state := (tube * tree)%type.

(** effect of the setter on the tube, codac_Slice.cpp 443-518 *)
Definition write_tube (w : write) (x : tube) : tube :=
  match w with
  | WSet k y => slice_set k y x
  | WEnvelope k y c => set_envelope k y c x
  | WIn k g c => set_input_gate k g c x
  | WOut k g c => set_output_gate k g c x
  end.
(** effect of the setter on the tree, codac_Slice.cpp 443-518 *)
Definition write_tree (w : write) (t : tree) : tree :=
  match w with
  | WSet k _ | WEnvelope k _ _ => request_ints (fst (request_values t k)) k
  | WIn k _ _ | WOut k _ _ => fst (request_values t k)
  end.
(** the slice that is written, codac_Slice.cpp 443-518 *)
Definition write_index (w : write) : nat := match w with WSet k _ | WEnvelope k _ _ | WIn k _ _ | WOut k _ _ => k end.

(** Tube::codomain_box, codac_Tube.cpp 1546-1552 *)
Definition q_codomain (st : state) : itv * tree :=
  let root := refresh (fst st) (snd st) [] in (node_cod root [], root).
(** Tube::operator()(t), codac_Tube.cpp 654-671: the tests of 656-663 are repeated by the tree *)
Definition q_eval (st : state) (t : itv) : itv * tree := top (fst st) (snd st) [] (snd st) t.
(** Tube::invert, codac_Tube.cpp 771-802 *)
Definition q_invert (st : state) (y search : itv) : itv * tree := tinvert (fst st) (snd st) [] (snd st) y search.
(** Tube::eval, codac_Tube.cpp 697-735 *)
Definition q_bounds (st : state) (t : itv) : ipair * tree := teval (fst st) (snd st) [] (snd st) t.
(** Tube::partial_integral, codac_Tube.cpp 1389-1398 *)
Definition q_integral (st : state) (tl tu : R) : ipair * tree := tpartial (fst st) (snd st) tl tu.

(** one call, codac_Slice.cpp 443-518 and codac_Tube.cpp 654-735, 771-802, 1389-1398, 1546-1552 *)
Definition step (st : state) (e : event) : state :=
  match e with
  | Write w => if Nat.ltb (write_index w) (length (fst st)) then (write_tube w (fst st), write_tree w (snd st)) else st
  | Query QCodomain => (fst st, snd (q_codomain st))
  | Query (QEval t) => (fst st, snd (q_eval st t))
  | Query (QInvert y s) => (fst st, snd (q_invert st y s))
  | Query (QBounds t) => (fst st, snd (q_bounds st t))
  | Query (QIntegral tl tu) => (fst st, snd (q_integral st tl tu))
  end.
(** Tube::enable_synthesis, then a history; codac_Tube.cpp 1600-1620 *)
Definition history (x : tube) (h : list event) : state := fold_left step h (x, tree_of x).
