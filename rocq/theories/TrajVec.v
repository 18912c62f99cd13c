(** * Vector operations on trajectories

    /repo/src/core/arithmetic/codac_traj_arithmetic_vector.cpp and
    /repo/src/core/variables/trajectory/codac_TrajectoryVector.cpp.

    Simplifications: those of Trajectory.v (exact reals; [None] for a failed assertion or an
    undefined behaviour); the products of vectors and matrices of IBEX are exact. *)

From Coq Require Import Reals Bool List Arith.
From Verif Require Import Itv Trajectory.
Import ListNotations.
Open Scope R_scope.

(** TrajectoryVector: m_n and m_v_trajs, codac_TrajectoryVector.h 530-531 *)
Definition tvec := list traj.

(** TrajectoryVector(int n), codac_TrajectoryVector.cpp 28-32 *)
Definition tv_new (n : nat) : option tvec := if Nat.eqb n 0 then None else Some (repeat traj_new n).

(** loop of operator()(double), codac_TrajectoryVector.cpp 213-214 *)
Fixpoint tv_values (x : tvec) (t : R) : option (list R) :=
  match x with
  | [] => Some []
  | a :: r => match traj_at a t, tv_values r t with Some v, Some l => Some (v :: l) | _, _ => None end
  end.

(** TrajectoryVector::operator()(double), codac_TrajectoryVector.cpp 209-216; the temporal domain is
    the one of the first component, 187-190 *)
Definition tv_at (x : tvec) (t : R) : option (list R) :=
  match x with
  | [] => None
  | a :: _ => if contains (t_dom a) t then tv_values x t else None
  end.

(** loop of set and its assertion on the sizes, codac_TrajectoryVector.cpp 283-285 *)
Fixpoint tv_set_loop (y : list R) (t : R) (x : tvec) : option tvec :=
  match x, y with
  | [], [] => Some []
  | a :: r, b :: s => match traj_set b t a, tv_set_loop s t r with Some a', Some r' => Some (a' :: r') | _, _ => None end
  | _, _ => None
  end.
(** TrajectoryVector::set(y,t), codac_TrajectoryVector.cpp 275-286 *)
Definition tv_set (y : list R) (t : R) (x : tvec) : option tvec :=
  tv_set_loop y t (match x with [] => repeat traj_new (length y) | _ => x end).

(** [x2_[i].sample(x2_[j])], codac_traj_arithmetic_vector.cpp 97 *)
Definition tv_sample_ij (i j : nat) (x : tvec) : option tvec :=
  match nth_error x i, nth_error x j with
  | Some a, Some b =>
      match traj_sample_as b a with
      | Some a' => Some (firstn i x ++ a' :: skipn (S i) x)
      | None => None
      end
  | _, _ => None
  end.
(** inner loop, codac_traj_arithmetic_vector.cpp 95-97: the indices [js] *)
Fixpoint tv_sample_row (i : nat) (js : list nat) (x : tvec) : option tvec :=
  match js with
  | [] => Some x
  | j :: r =>
      if Nat.eqb i j then tv_sample_row i r x
      else match tv_sample_ij i j x with Some x' => tv_sample_row i r x' | None => None end
  end.
(** outer loop, codac_traj_arithmetic_vector.cpp 94: the indices [is] *)
Fixpoint tv_sample_all (is : list nat) (x : tvec) : option tvec :=
  match is with
  | [] => Some x
  | i :: r => match tv_sample_row i (seq 0 (length x)) x with Some x' => tv_sample_all r x' | None => None end
  end.

(** Vector dot product, used by the products of codac_traj_arithmetic_vector.cpp 101 (IBEX) *)
Fixpoint dot (a b : list R) : R :=
  match a, b with x :: r, y :: s => x * y + dot r s | _, _ => 0 end.
(** Matrix*Vector, codac_traj_arithmetic_vector.cpp 101 (IBEX): the matrix is the list of its rows *)
Definition mat_vec (A : list (list R)) (v : list R) : list R := map (fun r => dot r v) A.
(** nb_cols(), codac_traj_arithmetic_vector.cpp 90 *)
Definition nb_cols (A : list (list R)) : nat := match A with [] => 0 | r :: _ => length r end.

(** loops over the samples of the first component, codac_traj_arithmetic_vector.cpp 100-101 and
    146-147: [f] is the function of the value *)
Fixpoint tv_build (f : list R -> list R) (x : tvec) (keys : list R) (res : tvec) : option tvec :=
  match keys with
  | [] => Some res
  | k :: r =>
      match tv_at x k with
      | Some v => match tv_set (f v) k res with Some res' => tv_build f x r res' | None => None end
      | None => None
      end
  end.
(** the map x[0].sampled_map() of codac_traj_arithmetic_vector.cpp 100 and 146; the assertion is
    codac_Trajectory.cpp 134 *)
Definition first_keys (x : tvec) : option (list R) :=
  match x with
  | [] => None
  | a :: _ => match t_fun a with None => Some (map fst (t_map a)) | Some _ => None end
  end.

(** operator*(Matrix, TrajectoryVector), codac_traj_arithmetic_vector.cpp 88-104 *)
Definition mat_mul (A : list (list R)) (x : tvec) : option tvec :=
  if Nat.eqb (nb_cols A) (length x) then
    match tv_sample_all (seq 0 (length x)) x, tv_new (length x) with
    | Some x', Some res =>
        match first_keys x' with Some ks => tv_build (mat_vec A) x' ks res | None => None end
    | _, _ => None
    end
  else None.

(** vecto_product(Vector, Vector), codac_traj_arithmetic_vector.cpp 130-139 *)
Definition cross (a b : list R) : list R :=
  let c i l := nth i l 0 in
  [c 1%nat a * c 2%nat b - c 2%nat a * c 1%nat b;
   c 2%nat a * c 0%nat b - c 0%nat a * c 2%nat b;
   c 0%nat a * c 1%nat b - c 1%nat a * c 0%nat b].

(** vecto_product(TrajectoryVector, Vector), codac_traj_arithmetic_vector.cpp 141-150 *)
Definition vecto_r (x : tvec) (v : list R) : option tvec :=
  if Nat.eqb (length x) 3 && Nat.eqb (length v) 3 then
    match first_keys x, tv_new (length x) with
    | Some ks, Some res => tv_build (fun a => cross a v) x ks res
    | _, _ => None
    end
  else None.

(** loop of the unary minus, codac_traj_arithmetic_vector.cpp 26-27 *)
Fixpoint tv_neg (x : tvec) : option tvec :=
  match x with
  | [] => Some []
  | a :: r => match traj_unary Ropp a, tv_neg r with Some a', Some r' => Some (a' :: r') | _, _ => None end
  end.
(** vecto_product(Vector, TrajectoryVector), codac_traj_arithmetic_vector.cpp 152-156 *)
Definition vecto_l (v : list R) (x : tvec) : option tvec :=
  if Nat.eqb (length v) 3 && Nat.eqb (length x) 3 then
    match vecto_r x v with Some z => tv_neg z | None => None end
  else None.
