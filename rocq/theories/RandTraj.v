(** * Random trajectories (src/core/variables/trajectory/codac_RandTrajectory.cpp)

    Simplifications: exact arithmetic; the successive values of rand()/double(RAND_MAX) are a parameter. *)

From Coq Require Import Reals Lra Bool List ZArith.
From Verif Require Import Itv Trajectory.
Import ListNotations.
Open Scope R_scope.

(** Tools::rand_in_bounds, codac_Tools.cpp 43-48, for the bounds [lo,hi] and the value [u] of rand()/double(RAND_MAX) *)
Definition rand_in_bounds (lo hi u : R) : R := Rmax lo (Rmin hi (u * (hi - lo) + lo)).
(** the loop, codac_RandTrajectory.cpp 33-39; [k]: number of calls of rand() so far; at most [n] tests of the condition ([None]: not ended) *)
Fixpoint rand_loop (n : nat) (rnd : nat -> R) (k : nat) (t b dt lo hi : R) (m : smap) (cod : itv) : option (smap * itv) :=
  match n with
  | O => None
  | S n =>
      if Rltb t (b + dt)
      then let y := rand_in_bounds lo hi (rnd k) in
           rand_loop n rnd (S k) (t + dt) b dt lo hi (put (Rmin t b) y m) (hull cod (pt y))
      else Some (m, cod)
  end.
(** RandTrajectory::RandTrajectory, codac_RandTrajectory.cpp 24-43; [None] when an assertion of lines 27-29 or 42 fails *)
Definition rand_traj (rnd : nat -> R) (a b dt lo hi : R) : option traj :=
  if Rltb a b && Rltb 0 dt && Rleb lo hi then
    match rand_loop (S (S (Z.to_nat (up ((b - a) / dt))))) rnd 0 a b dt lo hi [] Emp with
    | Some (m, cod) => if is_subset cod (bnd lo hi) then Some (mkT (bnd a b) cod None m) else None
    | None => None
    end
  else None.
