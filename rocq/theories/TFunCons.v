(** * Tubes and trajectories built from temporal functions

    /repo/src/core/domains/tube/codac_Tube.cpp 82-93, 127-136,
    /repo/src/core/domains/tube/codac_TubeVector.cpp 67-77 and
    /repo/src/core/functions/codac_TFunction.cpp 426-453.

    Simplifications: those of TFun.v, TubeOps.v and TrajVec.v ([None] for a failed assertion or an undefined
    behaviour, exact reals). *)

From Coq Require Import Reals Bool List Arith.
From Verif Require Import Itv Arith Tube TubeOps TFun Trajectory TrajVec.
Import ListNotations.
Open Scope R_scope.

(** [*this = f.eval_vector(input)[f_image_id]] where input is the scalar copy of the tube, codac_Tube.cpp 91-92, 134-135;
    [ev]: TFnc::eval_vector(TubeVector); [id] is not an index of the result: the assertion of lines 87, 130 *)
Definition fnc_of (ev : list tube -> option (list tube)) (id : nat) (x : tube) : option tube :=
  match ev [x] with Some y => option_map copy_tube (nth_error y id) | None => None end.
(** Tube::Tube(tdomain, timestep, f, id), codac_Tube.cpp 82-93; the assertions 85-86 are hypotheses *)
Definition tube_fnc (a b dt : R) (ev : list tube -> option (list tube)) (id : nat) : option tube :=
  fnc_of ev id (tube_timestep a b dt ALL).
(** Tube::Tube(x, f, id), codac_Tube.cpp 127-136 *)
Definition tube_as (x : tube) (ev : list tube -> option (list tube)) (id : nat) : option tube := fnc_of ev id (copy_tube x).
(** TubeVector::TubeVector(tdomain, timestep, f), codac_TubeVector.cpp 67-77; [n]: f.image_dim() *)
Definition tubes_fnc (a b dt : R) (n : nat) (ev : list tube -> option (list tube)) : option (list tube) :=
  option_map (map copy_tube) (ev (repeat (tube_timestep a b dt ALL) n)).

(** [IntervalVector::mid] of the image of a vector, codac_TFunction.cpp 449 (IBEX) *)
Definition midpoint (i : itv) : R := match i with Itv (Some l) (Some h) => (l + h) / 2 | _ => 0 end.
(** the loop of traj_eval_vector, codac_TFunction.cpp 442-450: the times [keys]; the vector [v] has nb_var()+1
    components and [put(1, x(t))] requires that they are enough *)
Fixpoint traj_loop (F : list itv -> list itv) (nv : nat) (x : tvec) (keys : list R) (y : tvec) : option tvec :=
  match keys with
  | [] => Some y
  | k :: r =>
      match tv_at x k with
      | Some v =>
          if Nat.leb (length v) nv then
            match tv_set (map midpoint (F (map pt (k :: v)))) k y with Some y' => traj_loop F nv x r y' | None => None end
          else None
      | None => None
      end
  end.
(** TFunction::traj_eval_vector, codac_TFunction.cpp 426-453; [nv]: nb_var(), [n]: image_dim() *)
Definition traj_eval_vector (F : list itv -> list itv) (nv n : nat) (x : tvec) : option tvec :=
  if Nat.eqb nv 0 || Nat.eqb (length x) nv then
    match first_keys x, tv_new n with
    | Some ks, Some y => traj_loop F nv x ks y
    | _, _ => None
    end
  else None.
