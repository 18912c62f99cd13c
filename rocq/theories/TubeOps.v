(** * Model of [codac::Tube] (second part): constructors, operators, comparisons, inversion

    /repo/src/core/domains/tube/codac_Tube.cpp, codac_Tube_operators.cpp,
    /repo/src/core/arithmetic/codac_tube_arithmetic_scalar.cpp,
    /repo/src/core/domains/slice/codac_Slice.cpp *)

From Coq Require Import Reals Lra Bool List Arith Lia ZArith.
From Verif Require Import Itv Arith Tube.
Import ListNotations.
Open Scope R_scope.

(** Tube::Tube(tdomain, timestep, codomain), codac_Tube.cpp 44-80: the do-while loop 58-76.
    Each iteration creates [lb, min(lb+dt, tf)]; it stops as soon as ub >= tf.
    The first argument bounds the number of iterations (see [tube_timestep]).
    Simplification: lb+dt is exact (in doubles it is rounded; with a timestep below half an
    ulp of lb the C++ loop does not progress). *)
Fixpoint timestep_loop (fuel : nat) (lb b dt : R) : tube :=
  match fuel with
  | O => []
  | S n => let ub := Rmin (lb + dt) b in
           slice_new lb ub ALL :: (if Rltb ub b then timestep_loop n ub b dt else [])
  end.
(** 55-56: a timestep of 0 means one slice; 78-79: set(codomain) unless it is [-oo,oo].
    chain_slices only intersects [-oo,oo] gates here. *)
Definition tube_timestep (a b dt : R) (y : itv) : tube :=
  let dt := if Reqb dt 0 then b - a else dt in
  let x := timestep_loop (S (Z.to_nat (up ((b - a) / dt)))) a b dt in
  if itv_eqb y ALL then x else tube_set y x.

(** Tube::Tube(v_tdomains, v_codomains), codac_Tube.cpp 95-120, for the pairs
    (upper bound of the i-th domain, i-th codomain); [a] is the lower bound of the first one.
    Loop 111-116: sample the current (last) slice at ub, set the envelope of its left part. *)
Fixpoint vectors_loop (k : nat) (l : list (R * itv)) (x : tube) : tube :=
  match l with
  | [] => x
  | (u, y) :: r => vectors_loop (S k) r (set_envelope k y true (sample u x))
  end.
(** codac_Tube.cpp 95-120 *)
Definition tube_vectors (a : R) (l : list (R * itv)) : tube :=
  vectors_loop 0 l (tube_one a (last (map fst l) a) ALL).

(** Tube::operator=, codac_Tube.cpp 215-239: the slices are copied one by one, each being
    chained to the previous copy (its own copy of the input gate is dropped: 233-235). *)
Definition copy_tube (x : tube) : tube :=
  match x with
  | [] => []
  | s :: r => fold_left (fun acc s => let prev := last acc s in acc ++ [set_in (s_out prev) s]) r [s]
  end.

(** The loop shared by every tube operator (do-while over the slices: set_envelope(_,false),
    set_input_gate(_,false); after the loop set_output_gate(_,false) on the last slice):
    codac_Tube_operators.cpp 19-109, codac_tube_arithmetic_scalar.cpp 25-261,
    codac_Tube.cpp 1201-1246.  [ec k], [ei k], [eo] are the values computed from the operands
    at slice [k] (the values read at rank k have not been written before iteration k). *)
Definition map_loop (ec ei : nat -> itv) (eo : itv) (x : tube) : tube :=
  let x1 := fold_left
    (fun acc k => set_input_gate k (ei k) false (set_envelope k (ec k) false acc))
    (seq 0 (length x)) x in
  set_output_gate (length x - 1) eo false x1.

(** Tube::slice(int), codac_Tube.cpp 333-359 *)
Definition sl (x : tube) (k : nat) : slice := nth k x (slice_new 0 0 Emp).

(** Tube::inflate(double), codac_Tube.cpp 1201-1221 *)
Definition inflate (A : arith) (rad : R) (x : tube) : tube :=
  let e := bnd (- rad) rad in
  map_loop (fun k => iadd A (s_cod (sl x k)) e) (fun k => iadd A (s_in (sl x k)) e)
           (iadd A (s_out (sl x (length x - 1))) e) x.

(** Tube::inflate(Trajectory), codac_Tube.cpp 1223-1246; [tr] is the trajectory's interval
    evaluation, [rad(double)] is taken as the evaluation on the degenerate interval. *)
Definition inflate_traj (A : arith) (tr : itv -> itv) (x : tube) : tube :=
  let e t := imul A (bnd (-1) 1) (tr t) in
  map_loop (fun k => iadd A (s_cod (sl x k)) (e (s_dom (sl x k))))
           (fun k => iadd A (s_in (sl x k)) (e (pt (s_lb (sl x k)))))
           (iadd A (s_out (sl x (length x - 1))) (e (pt (s_ub (sl x (length x - 1)))))) x.

(** Unary tube functions (operator- and macro_scal_unary), codac_tube_arithmetic_scalar.cpp
    25-100; [F] is the interval function. *)
Definition tube_unary (F : itv -> itv) (x : tube) : tube :=
  map_loop (fun k => F (s_cod (sl x k))) (fun k => F (s_in (sl x k)))
           (F (s_out (sl x (length x - 1)))) x.

(** Tube::same_slicing, codac_Tube.cpp 1490-1504 *)
Fixpoint same_slicing (x1 x2 : tube) : bool :=
  match x1, x2 with
  | [], [] => true
  | s1 :: r1, s2 :: r2 => itv_eqb (s_dom s1) (s_dom s2) && same_slicing r1 r2
  | _, _ => false
  end.

(** Binary tube functions (macro_scal_binary), codac_tube_arithmetic_scalar.cpp 141-193 *)
Definition tube_binary (F : itv -> itv -> itv) (x1 x2 : tube) : tube :=
  if same_slicing x1 x2
  then map_loop (fun k => F (s_cod (sl x1 k)) (s_cod (sl x2 k)))
                (fun k => F (s_in (sl x1 k)) (s_in (sl x2 k)))
                (F (s_out (sl x1 (length x1 - 1))) (s_out (sl x2 (length x1 - 1)))) x1
  else
    let x1r := sample_as x1 x2 in
    let x2r := sample_as x2 x1 in
    let y := sample_as x1 x2r in
    map_loop (fun k => F (s_cod (sl x1r k)) (s_cod (sl x2r k)))
             (fun k => F (s_in (sl x1r k)) (s_in (sl x2r k)))
             (F (s_out (sl x1r (length y - 1))) (s_out (sl x2r (length y - 1)))) y.

(** Assignment operators Tube::operator(+=,-=,*=,/=,&=,|=)(const Tube&),
    codac_Tube_operators.cpp 61-109 *)
Definition tube_assign (F : itv -> itv -> itv) (x1 x2 : tube) : tube :=
  if same_slicing x1 x2
  then map_loop (fun k => F (s_cod (sl x1 k)) (s_cod (sl x2 k)))
                (fun k => F (s_in (sl x1 k)) (s_in (sl x2 k)))
                (F (s_out (sl x1 (length x1 - 1))) (s_out (sl x2 (length x1 - 1)))) x1
  else map_loop (fun k => F (s_cod (sl x1 k)) (eval_itv x2 (s_dom (sl x1 k))))
                (fun k => F (s_in (sl x1 k)) (eval_t x2 (s_lb (sl x1 k))))
                (F (s_out (sl x1 (length x1 - 1))) (eval_t x2 (s_ub (sl x1 (length x1 - 1))))) x1.

(** Assignment operators with an interval, codac_Tube_operators.cpp 21-38 *)
Definition tube_assign_itv (F : itv -> itv -> itv) (x : tube) (i : itv) : tube :=
  tube_unary (fun v => F v i) x.

(** Assignment operators with a trajectory, codac_Tube_operators.cpp 40-59 *)
Definition tube_assign_traj (F : itv -> itv -> itv) (x : tube) (tr : itv -> itv) : tube :=
  map_loop (fun k => F (s_cod (sl x k)) (tr (s_dom (sl x k))))
           (fun k => F (s_in (sl x k)) (tr (pt (s_lb (sl x k)))))
           (F (s_out (sl x (length x - 1))) (tr (pt (s_ub (sl x (length x - 1)))))) x.

(** Tube::Tube(Trajectory lb, Trajectory ub, timestep), codac_Tube.cpp 146-153 *)
Definition tube_between (a b dt : R) (lb ub : itv -> itv) : tube :=
  tube_assign_traj hull
    (tube_assign_traj hull (tube_set Emp (tube_timestep a b dt ALL)) lb) ub.

(** Tube::set(y, Interval t), codac_Tube.cpp 1175-1194, for t = [a,b].  The loop starts at the
    slice of index time_to_index(a) and stops at the first slice whose domain meets t in at
    most one point. *)
Fixpoint set_itv_loop (fuel k : nat) (y t : itv) (x : tube) : tube :=
  match fuel with
  | O => x
  | S n => match nth_error x k with
           | None => x
           | Some s => if is_degenerated (inter t (s_dom s)) then x
                       else set_itv_loop n (S k) y t (slice_set k y x)
           end
  end.
(** codac_Tube.cpp 1175-1194 *)
Definition tube_set_itv (y : itv) (a b : R) (x : tube) : tube :=
  if Reqb a b then tube_set_at y a x
  else let x1 := sample b (sample a x) in
       set_itv_loop (length x1) (time_to_index a x1) y (bnd a b) x1.

(** Tube::truncate_tdomain, codac_Tube.cpp 1248-1278, for t = [a,b].
    Memory errors of the C++ code (slices deleted before the synthesis tree) are not modelled. *)
Definition is_outside_of (a b e : R) (s : slice) : bool :=
  negb (contains (s_dom s) e) || is_degenerated (inter (bnd a b) (s_dom s)).
(** slices removed at the beginning, codac_Tube.cpp 1248-1278 *)
Fixpoint drop_first (a b : R) (x : tube) : tube :=
  match x with
  | [] => []
  | s :: r => if is_outside_of a b a s then drop_first a b r else x
  end.
(** new domain of a slice, codac_Tube.cpp 1248-1278 *)
Definition clip_dom (a b : R) (s : slice) : slice :=
  match inter (bnd a b) (s_dom s) with
  | Itv (Some l) (Some u) => set_dom l u s
  | _ => s
  end.
(** slices removed at the end, codac_Tube.cpp 1248-1278 *)
Fixpoint drop_last (a b : R) (r : tube) : tube :=   (* on the reversed list *)
  match r with
  | [] => []
  | s :: r' => if is_outside_of a b b s then drop_last a b r' else r
  end.
(** codac_Tube.cpp 1248-1278 *)
Definition truncate_tdomain (a b : R) (x : tube) : tube :=
  let x1 := upd 0 (clip_dom a b) (drop_first a b x) in
  let x2 := rev (drop_last a b (rev x1)) in
  upd (length x2 - 1) (clip_dom a b) x2.

(** Slice::invert(y, search), codac_Slice.cpp 239-275 *)
Definition slice_invert (s : slice) (y search : itv) : itv :=
  if is_empty search then Emp
  else if lb_lt search (s_lb s) || ub_gt search (s_ub s) then ALL
  else if itv_eqb (inter (s_dom s) search) (s_dom s) && is_subset (s_cod s) y then s_dom s
  else if itv_eqb search (pt (s_lb s)) then if intersects y (s_in s) then pt (s_lb s) else Emp
  else if itv_eqb search (pt (s_ub s)) then if intersects y (s_out s) then pt (s_ub s) else Emp
  else if intersects y (s_cod s) then inter search (s_dom s) else Emp.

(** Tube::invert(y, search), codac_Tube.cpp 771-802 (mode NONE), search = [a,b].
    Loop 793: continues while [s->tdomain().lb() < search.ub()]. *)
Fixpoint invert_loop (x : tube) (y : itv) (a b : R) : itv :=
  match x with
  | [] => Emp
  | s :: r => if Rltb (s_lb s) b
              then hull (slice_invert s y (inter (bnd a b) (s_dom s))) (invert_loop r y a b)
              else Emp
  end.
(** codac_Tube.cpp 771-802 *)
Definition invert (x : tube) (y search : itv) : itv :=
  match search with
  | Emp => Emp
  | Itv (Some a) (Some b) =>
      if Rltb a (t0 x) || Rltb (tf x) b then ALL
      else invert_loop (skipn (time_to_index a x) x) y a b
  | _ => ALL
  end.

(** Tube::invert(y, v_t, search), codac_Tube.cpp 804-841.  Loop 823-836: continues while
    [s->tdomain().lb() <= search.ub()]; [cur] is the local variable [invert]. *)
Fixpoint invert_list_loop (x : tube) (y : itv) (a b : R) (cur : itv) : list itv :=
  match x with
  | s :: r =>
      if Rleb (s_lb s) b then
        let loc := slice_invert s y (inter (bnd a b) (s_dom s)) in
        if is_empty loc && negb (is_empty cur)
        then cur :: invert_list_loop r y a b Emp
        else invert_list_loop r y a b (hull cur loc)
      else if is_empty cur then [] else [cur]
  | [] => if is_empty cur then [] else [cur]
  end.
(** codac_Tube.cpp 804-841 *)
Definition invert_list (x : tube) (y search : itv) : list itv :=
  match search with
  | Emp => []
  | Itv (Some a) (Some b) =>
      if Rltb a (t0 x) || Rltb (tf x) b then [ALL]
      else invert_list_loop (skipn (time_to_index a x) x) y a b Emp
  | _ => [ALL]
  end.

(** Slice::operator==, codac_Slice.cpp 327-333; Slice::operator!= 335-341 *)
Definition slice_eqb (s1 s2 : slice) : bool :=
  itv_eqb (s_dom s1) (s_dom s2) && itv_eqb (s_cod s1) (s_cod s2)
  && itv_eqb (s_in s1) (s_in s2) && itv_eqb (s_out s1) (s_out s2).
(** codac_Slice.cpp 335-341 *)
Definition slice_neqb (s1 s2 : slice) : bool :=
  negb (itv_eqb (s_dom s1) (s_dom s2)) || negb (itv_eqb (s_cod s1) (s_cod s2))
  || negb (itv_eqb (s_in s1) (s_in s2)) || negb (itv_eqb (s_out s1) (s_out s2)).
(** Tube::operator==, codac_Tube.cpp 1003-1017 (the test on nb_slices is the last case) *)
Fixpoint tube_eqb (x1 x2 : tube) : bool :=
  match x1, x2 with
  | [], [] => true
  | s1 :: r1, s2 :: r2 => if slice_neqb s1 s2 then false else tube_eqb r1 r2
  | _, _ => false
  end.
(** Tube::operator!=, codac_Tube.cpp 1019-1033 *)
Fixpoint tube_neqb (x1 x2 : tube) : bool :=
  match x1, x2 with
  | [], [] => false
  | s1 :: r1, s2 :: r2 => if slice_neqb s1 s2 then true else tube_neqb r1 r2
  | _, _ => true
  end.

(** macro_sets_comparison(f): Slice level codac_Slice.cpp 343-348, Tube level
    codac_Tube.cpp 1035-1069.  [F] is is_subset or is_superset. *)
Definition slice_cmp (F : itv -> itv -> bool) (s1 s2 : slice) : bool :=
  F (s_cod s1) (s_cod s2) && F (s_in s1) (s_in s2) && F (s_out s1) (s_out s2).
(** loop of codac_Tube.cpp 1035-1069 *)
Fixpoint slices_cmp (F : itv -> itv -> bool) (x1 x2 : tube) : bool :=
  match x1, x2 with
  | s1 :: r1, s2 :: r2 => slice_cmp F s1 s2 && slices_cmp F r1 r2
  | _, _ => true
  end.
(** codac_Tube.cpp 1035-1069 *)
Definition tube_cmp (F : itv -> itv -> bool) (x1 x2 : tube) : bool :=
  if same_slicing x1 x2 then slices_cmp F x1 x2
  else forallb (fun s => F (s_in s) (eval_t x2 (s_lb s)) && F (s_cod s) (eval_itv x2 (s_dom s))) x1
       && F (s_out (sl x1 (length x1 - 1))) (eval_t x2 (s_ub (sl x1 (length x1 - 1)))).
(** codac_Tube.cpp 1035-1069 *)
Definition tube_is_subset := tube_cmp is_subset.
(** codac_Tube.cpp 1035-1069 *)
Definition tube_is_superset := tube_cmp is_superset.
(** Tube::is_strict_subset / is_strict_superset, codac_Tube.cpp 1076-1079, 1096-1099 *)
Definition tube_is_strict_subset (x1 x2 : tube) : bool := tube_is_subset x1 x2 && tube_neqb x1 x2.
(** codac_Tube.cpp 1096-1099 *)
Definition tube_is_strict_superset (x1 x2 : tube) : bool := tube_is_superset x1 x2 && tube_neqb x1 x2.

(** codac::BoolInterval; ibex::BoolInterval, included by codac_BoolInterval.h 15-20 *)
Inductive bool3 := YES | NO | MAYBE.

(** Slice::contains(Trajectory), codac_Slice.cpp 385-439; [tr] is the trajectory's interval
    evaluation.  The bisection stack is processed depth first (the right half is pushed last,
    hence popped first); [fuel] bounds the number of bisections on a branch, [eps] is
    EPSILON_CONTAINS; [None] means fuel exhausted. *)
Fixpoint bisect_contains (fuel : nat) (tr : itv -> itv) (cod : itv) (eps l u : R) : option bool3 :=
  match fuel with
  | O => None
  | S n =>
    let e := tr (bnd l u) in
    if negb (intersects e cod) then Some NO
    else if is_subset e cod then Some YES
    else if Rltb (u - l) eps then Some MAYBE
    else let m := l + (u - l) / 2 in
         match bisect_contains n tr cod eps m u with
         | Some YES => bisect_contains n tr cod eps l m
         | r => r
         end
  end.
(** codac_Slice.cpp 385-439 *)
Definition slice_contains (fuel : nat) (tr : itv -> itv) (eps : R) (s : slice) : option bool3 :=
  let e := tr (s_dom s) in
  let ei := tr (pt (s_lb s)) in
  let eo := tr (pt (s_ub s)) in
  if negb (intersects e (s_cod s)) || negb (intersects ei (s_in s)) || negb (intersects eo (s_out s))
  then Some NO
  else if negb (is_subset ei (s_in s)) || negb (is_subset eo (s_out s)) then Some MAYBE
  else if is_subset e (s_cod s) then Some YES
  else bisect_contains fuel tr (s_cod s) eps (s_lb s) (s_ub s).

(** Tube::contains(Trajectory), codac_Tube.cpp 1121-1134 *)
Fixpoint tube_contains_loop (fuel : nat) (tr : itv -> itv) (eps : R) (x : tube) (res : bool3) : option bool3 :=
  match x with
  | [] => Some res
  | s :: r => match slice_contains fuel tr eps s with
              | None => None
              | Some NO => Some NO
              | Some MAYBE => tube_contains_loop fuel tr eps r MAYBE
              | Some YES => tube_contains_loop fuel tr eps r res
              end
  end.
(** codac_Tube.cpp 1121-1134 *)
Definition tube_contains fuel tr eps x := tube_contains_loop fuel tr eps x YES.

(** Tube::merge_similar_slices, codac_Tube.cpp 606-619: loop over the slices; [close c1 c2] is
    the test distance(c1,c2) < threshold.  After a merge the next iteration compares the merged
    slice with the following one.  The fuel (number of slices) bounds the iterations. *)
Fixpoint merge_loop (fuel : nat) (close : itv -> itv -> bool) (k : nat) (x : tube) : tube :=
  match fuel with
  | O => x
  | S n =>
    match nth_error x k, nth_error x (S k) with
    | Some s1, Some s2 =>
        if close (s_cod s1) (s_cod s2) then merge_loop n close k (merge_at k x)
        else merge_loop n close (S k) x
    | _, _ => x
    end
  end.
(** codac_Tube.cpp 606-619 *)
Definition merge_similar_slices (close : itv -> itv -> bool) (x : tube) : tube :=
  merge_loop (length x) close 0 x.

(** Editing operations of the public API, and their sequential execution. codac_Tube.cpp 525-619, 1161-1287 *)
Inductive edit :=
| ESample (t : R)                (* sample(t) *)
| ESampleAs (y : tube)           (* sample(Tube) *)
| ESetAll (y : itv)              (* set(y) *)
| ESetId (y : itv) (k : nat)     (* set(y, slice_id) *)
| ESetAt (y : itv) (t : R)       (* set(y, t) / sample(t, gate) *)
| ESetItv (y : itv) (a b : R)    (* set(y, [a,b]) *)
| EEnvelope (k : nat) (y : itv)  (* slice(k)->set_envelope(y) *)
| EInGate (k : nat) (g : itv)    (* slice(k)->set_input_gate(g) *)
| EOutGate (k : nat) (g : itv)   (* slice(k)->set_output_gate(g) *)
| ERemoveGate (t : R)            (* remove_gate(t) *)
| EMerge (close : itv -> itv -> bool) (* merge_similar_slices *)
| EInter (y : tube)              (* *this = *this & y *)
| EUnion (y : tube)              (* *this = *this | y *)
| ECopy.                         (* *this = copy *)

(** one call, codac_Tube.cpp 525-619, 1161-1287 *)
Definition exec (e : edit) (x : tube) : tube :=
  match e with
  | ESample t => sample t x
  | ESampleAs y => sample_as x y
  | ESetAll y => tube_set y x
  | ESetId y k => slice_set k y x
  | ESetAt y t => tube_set_at y t x
  | ESetItv y a b => tube_set_itv y a b x
  | EEnvelope k y => set_envelope k y true x
  | EInGate k g => set_input_gate k g true x
  | EOutGate k g => set_output_gate k g true x
  | ERemoveGate t => remove_gate t x
  | EMerge close => merge_similar_slices close x
  | EInter y => tube_binary inter x y
  | EUnion y => tube_binary hull x y
  | ECopy => copy_tube x
  end.
(** a sequence of calls, codac_Tube.cpp 525-619, 1161-1287 *)
Definition run (l : list edit) (x : tube) : tube := fold_left (fun x e => exec e x) l x.

(** [p |= bound] with a bound of an interval: a finite bound adds a point; an infinite bound is
    converted to Interval(+-oo), which IBEX represents by the empty set (no effect).
    (The bounds of an empty interval are NaN in IBEX; here they are ignored.); codac_Slice.cpp 176-205 *)
Definition lbound (i : itv) : option R := match i with Itv l _ => l | Emp => None end.
(** codac_Slice.cpp 176-205 *)
Definition ubound (i : itv) : option R := match i with Itv _ h => h | Emp => None end.
(** codac_Slice.cpp 176-205 *)
Definition add_bound (p : itv) (b : option R) : itv :=
  match b with Some r => hull p (pt r) | None => p end.
(** codac_Slice.cpp 176-205 *)
Definition add_bounds (p : itv * itv) (i : itv) : itv * itv :=
  (add_bound (fst p) (lbound i), add_bound (snd p) (ubound i)).

(** Slice::eval(t), codac_Slice.cpp 176-205, for t inside of the slice's domain *)
Definition slice_eval_bounds (s : slice) (t : itv) : itv * itv :=
  let p := (Emp, Emp) in
  let p := if contains t (s_lb s) then add_bounds p (s_in s) else p in
  let p := if contains t (s_ub s) then add_bounds p (s_out s) else p in
  if is_subset t (s_dom s) && negb (itv_eqb t (pt (s_lb s))) && negb (itv_eqb t (pt (s_ub s)))
  then add_bounds p (s_cod s) else p.

(** Tube::eval(t), codac_Tube.cpp 697-735 (mode NONE), for t = [a,b] inside of the domain.
    Loop 724-730: from slice(a) while [s->tdomain().lb() <= b]. *)
Fixpoint eval_bounds_loop (x : tube) (a b : R) (p : itv * itv) : itv * itv :=
  match x with
  | [] => p
  | s :: r => if Rleb (s_lb s) b
              then let q := slice_eval_bounds s (inter (bnd a b) (s_dom s)) in
                   eval_bounds_loop r a b (hull (fst p) (fst q), hull (snd p) (snd q))
              else p
  end.
(** codac_Tube.cpp 697-735 *)
Definition eval_bounds (x : tube) (a b : R) : itv * itv :=
  eval_bounds_loop (skipn (time_to_index a x) x) a b (Emp, Emp).
