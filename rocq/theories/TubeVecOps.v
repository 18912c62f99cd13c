(** * Model of the operators of TubeVector, of the assignment operators of TrajectoryVector and of those of Slice

    /repo/src/core/arithmetic/codac_tube_arithmetic_vector.cpp, /repo/src/core/domains/tube/codac_TubeVector_operators.cpp,
    /repo/src/core/variables/trajectory/codac_TrajectoryVector_operators.cpp,
    /repo/src/core/domains/slice/codac_Slice_operators.cpp.  [None] stands for a failed assertion.

    The result of [F] on two intervals is the interval operation of the operator (ibex).  A trajectory met by a tube
    operator is its interval evaluation [tr : itv -> itv] (as in TubeOps); the assertion that it has the temporal domain of
    the tube is then left out. *)

From Coq Require Import Reals Bool List Arith.
Import ListNotations.
From Verif Require Import Itv Arith Tube TubeOps TubePaving Trajectory.
Open Scope R_scope.

(** TubeVector::tdomain(), codac_TubeVector.cpp 203-209: asserts that the components share it *)
Definition vec_tdomain (v : list tube) : option itv :=
  match v with
  | [] => None
  | x :: r => if forallb (fun y => itv_eqb (tube_tdomain x) (tube_tdomain y)) r then Some (tube_tdomain x) else None
  end.
(** [assert(x1.tdomain() == x2.tdomain())], codac_tube_arithmetic_vector.cpp 37 *)
Definition same_tdom (i : option itv) (x2 : option itv) : bool :=
  match i, x2 with Some a, Some b => itv_eqb a b | _, _ => false end.
(** The loop [y[i] = f(x1[i], x2[i])], with [assert(x1.size() == x2.size())]: codac_tube_arithmetic_vector.cpp 36 and 40-41 *)
Fixpoint zipw {A B C} (f : A -> B -> C) (l1 : list A) (l2 : list B) : option (list C) :=
  match l1, l2 with
  | [], [] => Some []
  | x :: r1, y :: r2 => match zipw f r1 r2 with Some l => Some (f x y :: l) | None => None end
  | _, _ => None
  end.

(** operator-(TubeVector), codac_tube_arithmetic_vector.cpp 24-30; y[i] is assigned from y[i] itself *)
Definition vec_neg (A : arith) (v : list tube) : list tube := map (tube_unary (ineg A)) v.
(** f(TubeVector, TubeVector) with f among + - | &, codac_tube_arithmetic_vector.cpp 34-43 *)
Definition vec_op (F : itv -> itv -> itv) (x1 x2 : list tube) : option (list tube) :=
  if same_tdom (vec_tdomain x1) (vec_tdomain x2) then zipw (tube_binary F) x1 x2 else None.
(** f(TubeVector, IntervalVector), codac_tube_arithmetic_vector.cpp 45-53; scalar: codac_tube_arithmetic_scalar.cpp 195-223 *)
Definition vec_op_box (F : itv -> itv -> itv) (x1 : list tube) (x2 : list itv) : option (list tube) :=
  zipw (fun x i => tube_unary (fun c => F c i) x) x1 x2.
(** f(IntervalVector, TubeVector), codac_tube_arithmetic_vector.cpp 55-63; scalar: codac_tube_arithmetic_scalar.cpp 225-253 *)
Definition box_op_vec (F : itv -> itv -> itv) (x1 : list itv) (x2 : list tube) : option (list tube) :=
  zipw (fun i x => tube_unary (fun c => F i c) x) x1 x2.
(** f(TubeVector, TrajectoryVector), codac_tube_arithmetic_vector.cpp 65-74; scalar: codac_tube_arithmetic_scalar.cpp 267-273,
    287-293 and 303-309 *)
Definition vec_op_traj (F : itv -> itv -> itv) (x1 : list tube) (x2 : list (itv -> itv)) : option (list tube) :=
  zipw (tube_assign_traj F) x1 x2.
(** f(TrajectoryVector, TubeVector) with f among + | & : codac_tube_arithmetic_vector.cpp 76-85; the scalar operator applies
    the assignment operator to a copy of the tube: codac_tube_arithmetic_scalar.cpp 275-281 and 295-301 *)
Definition traj_op_vec (F : itv -> itv -> itv) (x1 : list (itv -> itv)) (x2 : list tube) : option (list tube) :=
  zipw (fun tr x => tube_assign_traj F x tr) x1 x2.
(** operator-(TrajectoryVector, TubeVector), codac_tube_arithmetic_vector.cpp 76-85; scalar: codac_tube_arithmetic_scalar.cpp
    311-317, the opposite of the tube plus the trajectory *)
Definition traj_sub_vec (A : arith) (x1 : list (itv -> itv)) (x2 : list tube) : option (list tube) :=
  zipw (fun tr x => tube_assign_traj (iadd A) (tube_unary (ineg A) x) tr) x1 x2.
(** operator*(Interval, TubeVector), codac_tube_arithmetic_vector.cpp 93-99 *)
Definition itv_mul_vec (A : arith) (i : itv) (v : list tube) : list tube := map (tube_unary (fun c => imul A i c)) v.
(** operator*(Tube, IntervalVector), codac_tube_arithmetic_vector.cpp 101-107: each component is first a copy of the tube *)
Definition tube_mul_box (A : arith) (x : tube) (b : list itv) : list tube := map (fun i => tube_unary (fun c => imul A c i) x) b.
(** operator*(Tube, TubeVector), codac_tube_arithmetic_vector.cpp 109-116 *)
Definition tube_mul_vec (A : arith) (x : tube) (v : list tube) : option (list tube) :=
  if same_tdom (Some (tube_tdomain x)) (vec_tdomain v) then Some (map (fun y => tube_binary (imul A) x y) v) else None.
(** operator*(Trajectory, TubeVector), codac_tube_arithmetic_vector.cpp 118-125; scalar: codac_tube_arithmetic_scalar.cpp 327-333 *)
Definition traj_mul_vec (A : arith) (tr : itv -> itv) (v : list tube) : list tube := map (fun y => tube_assign_traj (imul A) y tr) v.
(** operator/(TubeVector, Interval), codac_tube_arithmetic_vector.cpp 127-133; [D] is the division of ibex *)
Definition vec_div_itv (D : itv -> itv -> itv) (v : list tube) (i : itv) : list tube := map (tube_unary (fun c => D c i)) v.
(** operator/(IntervalVector, Tube), codac_tube_arithmetic_vector.cpp 135-142: copies of the tube, set to the components of the
    box, then divided *)
Definition box_div_tube (D : itv -> itv -> itv) (b : list itv) (x : tube) : list tube :=
  map (fun i => tube_binary D (tube_set i x) x) b.
(** operator/(TubeVector, Tube), codac_tube_arithmetic_vector.cpp 144-151 *)
Definition vec_div_tube (D : itv -> itv -> itv) (v : list tube) (x : tube) : option (list tube) :=
  if same_tdom (vec_tdomain v) (Some (tube_tdomain x)) then Some (map (fun y => tube_binary D y x) v) else None.
(** operator/(TubeVector, Trajectory), codac_tube_arithmetic_vector.cpp 153-160 *)
Definition vec_div_traj (D : itv -> itv -> itv) (v : list tube) (tr : itv -> itv) : list tube :=
  map (fun y => tube_assign_traj D y tr) v.
(** abs(TubeVector), codac_tube_arithmetic_vector.cpp 162-168; [F] is ibex::abs *)
Definition vec_abs (F : itv -> itv) (v : list tube) : list tube := map (tube_unary F) v.

(** ** Assignment operators of TubeVector *)

(** f(const IntervalVector&) with f among += -= |= &=, codac_TubeVector_operators.cpp 21-28 *)
Definition vec_assign_box (F : itv -> itv -> itv) (v : list tube) (b : list itv) : option (list tube) := zipw (tube_assign_itv F) v b.
(** f(const TrajectoryVector&), codac_TubeVector_operators.cpp 30-38 *)
Definition vec_assign_trajs (F : itv -> itv -> itv) (v : list tube) (trs : list (itv -> itv)) : option (list tube) :=
  zipw (tube_assign_traj F) v trs.
(** f(const TubeVector&), codac_TubeVector_operators.cpp 40-48.  The argument may be the vector itself: component [i] is
    computed from component [i] of the argument, which is not modified before. *)
Definition vec_assign (F : itv -> itv -> itv) (v x : list tube) : option (list tube) :=
  if same_tdom (vec_tdomain v) (vec_tdomain x) then zipw (tube_assign F) v x else None.
(** f(const Interval&) with f among += -= *= /=, codac_TubeVector_operators.cpp 53-58 *)
Definition vec_assign_itv (F : itv -> itv -> itv) (v : list tube) (i : itv) : list tube := map (fun x => tube_assign_itv F x i) v.
(** f(const Trajectory&), codac_TubeVector_operators.cpp 60-67 *)
Definition vec_assign_traj (F : itv -> itv -> itv) (v : list tube) (tr : itv -> itv) : list tube :=
  map (fun x => tube_assign_traj F x tr) v.

(** The argument [const Tube& x] of codac_TubeVector_operators.cpp 69: a reference to an object that is not in the vector, or
    to a component of the vector *)
Inductive targ := Other (x : tube) | Own (j : nat).
(** Reading through this reference, codac_TubeVector_operators.cpp 75: the value at the time of the read *)
Definition read (v : list tube) (a : targ) : option tube := match a with Other x => Some x | Own j => nth_error v j end.
(** The loop [this[i].f(x)], codac_TubeVector_operators.cpp 74-75, for the indexes [is] *)
Fixpoint assign_scal_loop (F : itv -> itv -> itv) (a : targ) (is : list nat) (v : list tube) : option (list tube) :=
  match is with
  | [] => Some v
  | i :: r => match read v a with
              | Some x => assign_scal_loop F a r (upd i (fun y => tube_assign F y x) v)
              | None => None
              end
  end.
(** f(const Tube&) with f among += -= *= /=, codac_TubeVector_operators.cpp 69-77; TubeVector::same_slicing(TubeVector, Tube):
    codac_TubeVector.cpp 1009-1015 *)
Definition vec_assign_tube (F : itv -> itv -> itv) (a : targ) (v : list tube) : option (list tube) :=
  match read v a with
  | Some x => if same_tdom (vec_tdomain v) (Some (tube_tdomain x)) && forallb (fun y => same_slicing y x) v
              then assign_scal_loop F a (seq 0 (length v)) v else None
  | None => None
  end.

(** ** Assignment operators of TrajectoryVector *)

(** the argument [const Trajectory& x] of codac_TrajectoryVector_operators.cpp 51 *)
Inductive jarg := JOther (x : traj) | JOwn (j : nat).
(** reading it, codac_TrajectoryVector_operators.cpp 56 *)
Definition jread (v : list traj) (a : jarg) : option traj := match a with JOther x => Some x | JOwn j => nth_error v j end.
(** the loop of codac_TrajectoryVector_operators.cpp 55-56 *)
Fixpoint jassign_loop (op : R -> R -> R) (a : jarg) (is : list nat) (v : list traj) : option (list traj) :=
  match is with
  | [] => Some v
  | i :: r => match jread v a, nth_error v i with
              | Some x, Some y => match traj_assign op x y with
                                  | Some z => jassign_loop op a r (upd i (fun _ => z) v)
                                  | None => None
                                  end
              | _, _ => None
              end
  end.
(** TrajectoryVector::f(const Trajectory&), codac_TrajectoryVector_operators.cpp 51-58; TrajectoryVector::tdomain() is the one
    of the first component, codac_TrajectoryVector.cpp 187-190 *)
Definition jvec_assign (op : R -> R -> R) (a : jarg) (v : list traj) : option (list traj) :=
  match jread v a, v with
  | Some x, y :: _ => if itv_eqb (t_dom y) (t_dom x) then jassign_loop op a (seq 0 (length v)) v else None
  | _, _ => None
  end.

(** ** Assignment operators of Slice *)

(** Slice::f(const Interval-like value) applied to the slice [k] of the tube [x], codac_Slice_operators.cpp 20-26: envelope,
    input gate, output gate, without consistency.  The gates are those shared with the neighbours. *)
Definition slice_assign (F : itv -> itv) (k : nat) (x : tube) : tube :=
  let s := sl x k in
  set_output_gate k (F (s_out s)) false (set_input_gate k (F (s_in s)) false (set_envelope k (F (s_cod s)) false x)).
(** The operator applied to each slice of the tube in turn, as in [for(Slice *s = x.first_slice() ; s ; s = s->next_slice())
    *s += d]; codac_Slice_operators.cpp 20-26 *)
Definition slices_assign (F : itv -> itv) (x : tube) : tube := fold_left (fun acc k => slice_assign F k acc) (seq 0 (length x)) x.
