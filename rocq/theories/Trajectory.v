(** * Model of [codac::Trajectory]

    /repo/src/core/variables/trajectory/codac_Trajectory.cpp, codac_Trajectory.h,
    codac_Trajectory_operators.cpp, /repo/src/core/arithmetic/codac_traj_arithmetic_scalar.cpp.

    Simplifications: times and values are exact reals (no rounding, no NaN, no infinities); an
    assertion failure or an undefined behaviour (dereferencing [end()], reading before [begin()])
    is the outcome [None]. *)

From Coq Require Import Reals Lra Bool List ZArith.
From Verif Require Import Itv.
Import ListNotations.
Open Scope R_scope.

(** ** std::map<double,double>: association list, increasing keys *)

(** std::map<double,double>, codac_Trajectory.h 465 *)
Definition smap := list (R * R).

(** [m.find(t)], codac_Trajectory.cpp 159: the value of the key, if any *)
Fixpoint lookup (t : R) (m : smap) : option R :=
  match m with
  | [] => None
  | (k, v) :: r => if Reqb k t then Some v else lookup t r
  end.

(** [m[t] = y], codac_Trajectory.cpp 80, or [m.erase(t); m.emplace(t,y)], 309-310 *)
Fixpoint put (t y : R) (m : smap) : smap :=
  match m with
  | [] => [(t, y)]
  | (k, v) :: r =>
      if Rltb t k then (t, y) :: (k, v) :: r
      else if Reqb k t then (t, y) :: r
      else (k, v) :: put t y r
  end.

(** [lower_bound(t)] and the entry that precedes it, codac_Trajectory.cpp 165-168; [None] when one
    of the two iterators cannot be dereferenced *)
Fixpoint bracket (prev : option (R * R)) (t : R) (m : smap) : option ((R * R) * (R * R)) :=
  match m with
  | [] => None
  | (k, v) :: r =>
      if Rleb t k then match prev with None => None | Some p => Some (p, (k, v)) end
      else bracket (Some (k, v)) t r
  end.

(** Linear interpolation, codac_Trajectory.cpp 171-173 *)
Definition lerp (t : R) (p q : R * R) : R :=
  snd p + (t - fst p) * (snd q - snd p) / (fst q - fst p).

(** Evaluation of a sampled trajectory, codac_Trajectory.cpp 158-174 *)
Definition map_at (m : smap) (t : R) : option R :=
  match lookup t m with
  | Some v => Some v
  | None => match bracket None t m with Some (p, q) => Some (lerp t p q) | None => None end
  end.

(** ** The class *)

(** TFunction of the temporal variable only, as used by a trajectory: [f_pt] is eval(t).mid() (156;
    simplification: the midpoint of the evaluation is the exact value), [f_itv] is eval([t]) (194).
    codac_Trajectory.h 464 *)
Record tfun := mkF { f_pt : R -> R; f_itv : itv -> itv }.

(** Trajectory, codac_Trajectory.h 456-465; [t_fun = None] is m_traj_def_type == MAP_OF_VALUES *)
Record traj := mkT { t_dom : itv; t_cod : itv; t_fun : option tfun; t_map : smap }.

(** compute_codomain, codac_Trajectory.cpp 690-692 (MAP_OF_VALUES case) *)
Definition cod_of_map (m : smap) : itv := fold_left (fun c kv => hull c (pt (snd kv))) m Emp.
(** compute_codomain, codac_Trajectory.cpp 681-698 *)
Definition compute_codomain (x : traj) : traj :=
  mkT (t_dom x) (match t_fun x with Some f => f_itv f (t_dom x) | None => cod_of_map (t_map x) end)
      (t_fun x) (t_map x).

(** Trajectory(), codac_Trajectory.cpp 23-27 and codac_Trajectory.h 456-457 *)
Definition traj_new : traj := mkT Emp Emp None [].

(** Trajectory(tdomain, f), codac_Trajectory.cpp 34-43 *)
Definition traj_fun (a b : R) (f : tfun) : traj := mkT (bnd a b) (f_itv f (bnd a b)) (Some f) [].

(** Trajectory(map), codac_Trajectory.cpp 52-68 *)
Definition traj_map (m : smap) : traj :=
  match m with
  | [] => traj_new
  | (k, _) :: _ => compute_codomain (mkT (bnd k (fst (last m (0, 0)))) Emp None m)
  end.

(** Trajectory(list_t, list_x), codac_Trajectory.cpp 70-83: the codomain is not computed *)
Definition traj_lists (lt lx : list R) : traj :=
  fold_left (fun x tv => mkT (hull (t_dom x) (pt (fst tv))) (t_cod x) (t_fun x)
                             (put (fst tv) (snd tv) (t_map x)))
            (combine lt lx) traj_new.

(** Trajectory::operator()(double), codac_Trajectory.cpp 149-180; 151: assert(tdomain().contains(t)) *)
Definition traj_at (x : traj) (t : R) : option R :=
  if contains (t_dom x) t then
    match t_fun x with Some f => Some (f_pt f t) | None => map_at (t_map x) t end
  else None.

(** Trajectory::operator()(const Interval&), codac_Trajectory.cpp 182-211, for the interval [a,b].
    Loop 201-203: the keys from lower_bound(a) to upper_bound(b) excluded, that is the keys of
    [a,b]. *)
Definition traj_on (x : traj) (a b : R) : option itv :=
  if is_superset (t_dom x) (bnd a b) then
    if itv_eqb (t_dom x) (bnd a b) then Some (t_cod x)
    else match t_fun x with
         | Some f => Some (f_itv f (bnd a b))
         | None =>
             match traj_at x a, traj_at x b with
             | Some va, Some vb =>
                 Some (fold_left (fun c kv => hull c (pt (snd kv)))
                         (filter (fun kv => Rleb a (fst kv) && Rleb (fst kv) b) (t_map x))
                         (hull (hull Emp (pt va)) (pt vb)))
             | _, _ => None
             end
         end
  else None.

(** Trajectory::not_defined, codac_Trajectory.cpp 247-261 *)
Definition not_defined (x : traj) : bool :=
  match t_fun x with Some _ => false | None => match t_map x with [] => true | _ => false end end.

(** Loop of Trajectory::operator==, codac_Trajectory.cpp 274-281: every sample of the first map is a
    sample of the second *)
Definition map_sub (m m' : smap) : bool :=
  forallb (fun kv => match lookup (fst kv) m' with Some v => Reqb (snd kv) v | None => false end) m.

(** Trajectory::operator==, codac_Trajectory.cpp 263-288; 265-266 asserts that one of the two is
    sampled *)
Definition traj_eqb (x y : traj) : option bool :=
  match t_fun x, t_fun y with
  | None, None =>
      Some (if negb (itv_eqb (t_dom x) (t_dom y)) || negb (itv_eqb (t_cod x) (t_cod y)) then false
            else map_sub (t_map x) (t_map y))
  | Some _, Some _ => None
  | _, _ => Some false
  end.

(** Trajectory::operator!=, codac_Trajectory.cpp 290-295; 292-293 asserts that both are sampled *)
Definition traj_neqb (x y : traj) : option bool :=
  match t_fun x, t_fun y with
  | None, None =>
      match traj_eqb x y with
      | Some e => Some (negb (itv_eqb (t_dom x) (t_dom y)) || negb (itv_eqb (t_cod x) (t_cod y)) || negb e)
      | None => None
      end
  | _, _ => None
  end.

(** Trajectory::set(y,t), codac_Trajectory.cpp 299-317; 301 asserts that it is sampled *)
Definition traj_set (y t : R) (x : traj) : option traj :=
  match t_fun x with
  | Some _ => None
  | None =>
      let upd := match lookup t (t_map x) with Some v => contains (t_cod x) v | None => false end in
      let x' := mkT (hull (t_dom x) (pt t)) (t_cod x) None (put t y (t_map x)) in
      Some (if upd then compute_codomain x'
            else mkT (t_dom x') (hull (t_cod x') (pt y)) None (t_map x'))
  end.

(** Trajectory::truncate_tdomain(t), codac_Trajectory.cpp 319-343, for the interval [a,b]; 321-322
    assert that it is a valid (bounded, non degenerate: domains/tube/codac_DynamicalItem.cpp 23-26) subset
    of the domain *)
Definition traj_truncate (a b : R) (x : traj) : option traj :=
  if Rltb a b && is_superset (t_dom x) (bnd a b) then
    match t_fun x with
    | Some _ => Some (compute_codomain (mkT (inter (t_dom x) (bnd a b)) (t_cod x) (t_fun x) (t_map x)))
    | None =>
        match traj_at x a, traj_at x b with
        | Some ya, Some yb =>
            let m := filter (fun kv => contains (bnd a b) (fst kv)) (t_map x) in
            Some (compute_codomain (mkT (inter (t_dom x) (bnd a b)) (t_cod x) None (put b yb (put a ya m))))
        | _, _ => None
        end
    end
  else None.

(** Addition of a number to an interval, codac_Trajectory.cpp 356 *)
Definition shift_itv (s : R) (i : itv) : itv :=
  match i with Emp => Emp | Itv l h => Itv (option_map (fun a => a + s) l) (option_map (fun a => a + s) h) end.

(** Trajectory::shift_tdomain, codac_Trajectory.cpp 345-359 (with a TFunction only the domain moves) *)
Definition traj_shift (s : R) (x : traj) : traj :=
  compute_codomain
    (mkT (shift_itv s (t_dom x)) (t_cod x) (t_fun x)
         (match t_fun x with
          | None => fold_left (fun m kv => put (fst kv + s) (snd kv) m) (t_map x) []
          | Some _ => t_map x
          end)).

(** One evaluation of sample, codac_Trajectory.cpp 385-386 and 411-412 *)
Definition sample_key (x : traj) (t : R) (m : smap) : option smap :=
  match lookup t m with
  | Some _ => Some m
  | None => match traj_at x t with Some v => Some (put t v m) | None => None end
  end.

(** Loop of sample(dt), codac_Trajectory.cpp 384-386; the first argument bounds the number of
    iterations *)
Fixpoint sample_loop (fuel : nat) (x : traj) (t b dt : R) (m : smap) : option smap :=
  match fuel with
  | O => Some m
  | S n => if Rltb t b
           then match sample_key x t m with Some m' => sample_loop n x (t + dt) b dt m' | None => None end
           else Some m
  end.

(** Initial new_map of sample, codac_Trajectory.cpp 380-381, 407-408 *)
Definition sample_start (x : traj) : smap := match t_fun x with None => t_map x | Some _ => [] end.

(** Trajectory::sample(dt), codac_Trajectory.cpp 374-398; with an empty temporal domain the bounds
    are NaN and the evaluation 387 is undefined *)
Definition traj_sample (dt : R) (x : traj) : option traj :=
  match t_dom x with
  | Itv (Some a) (Some b) =>
      if Rltb 0 dt then
        match sample_loop (S (Z.to_nat (up ((b - a) / dt)))) x a b dt (sample_start x), traj_at x b with
        | Some m, Some vb => Some (mkT (t_dom x) (t_cod x) None (put b vb m))
        | _, _ => None
        end
      else None
  | _ => None
  end.

(** Loop of sample(const Trajectory&), codac_Trajectory.cpp 410-412 *)
Fixpoint sample_keys (x : traj) (l : list R) (m : smap) : option smap :=
  match l with
  | [] => Some m
  | t :: r => match sample_key x t m with Some m' => sample_keys x r m' | None => None end
  end.

(** Trajectory::sample(const Trajectory& y), codac_Trajectory.cpp 400-423 *)
Definition traj_sample_as (y x : traj) : option traj :=
  match t_fun y with
  | Some _ => None
  | None =>
      if itv_eqb (t_dom x) (t_dom y) then
        match sample_keys x (map fst (t_map y)) (sample_start x) with
        | Some m => Some (mkT (t_dom x) (t_cod x) None m)
        | None => None
        end
      else None
  end.

(** diam(), used in codac_Trajectory.cpp 440-443 *)
Definition diam (i : itv) : R := match i with Itv (Some a) (Some b) => b - a | _ => 0 end.

(** Loop of make_continuous, codac_Trajectory.cpp 436-449: [prev] is the previous value (none at the
    first iteration), [md] is value_mod; gives the new map in the same order of keys *)
Fixpoint continuous_loop (d : R) (prev : option R) (md : R) (m : smap) : smap :=
  match m with
  | [] => []
  | (k, v) :: r =>
      let md' := match prev with
                 | None => md
                 | Some p => if Rltb (d * (9/10)) (p - v) then md + d
                             else if Rltb (p - v) (- d * (9/10)) then md - d else md
                 end in
      (k, v + md') :: continuous_loop d (Some v) md' r
  end.
(** Trajectory::make_continuous, codac_Trajectory.cpp 425-453 *)
Definition traj_continuous (x : traj) : option traj :=
  match t_fun x with
  | Some _ => None
  | None => let m := continuous_loop (diam (t_cod x)) None 0 (t_map x) in
            Some (mkT (t_dom x) (cod_of_map m) None m)
  end.

(** ** Integration and differentiation *)

(** Sequence of calls of set, used by primitive and diff; codac_Trajectory.cpp 457-555 *)
Fixpoint set_all (l : smap) (x : traj) : option traj :=
  match l with
  | [] => Some x
  | (t, y) :: r => match traj_set y t x with Some x' => set_all r x' | None => None end
  end.

(** Values computed by primitive(c), loop codac_Trajectory.cpp 465-474; [prev] is *prev(it) *)
Fixpoint prim_loop (prev : option (R * R)) (val : R) (m : smap) : smap :=
  match m with
  | [] => []
  | (k, v) :: r =>
      let val' := match prev with
                  | None => val
                  | Some (k0, v0) => val + (v0 + v) * (k - k0) / 2
                  end in
      (k, val') :: prim_loop (Some (k, v)) val' r
  end.
(** Trajectory::primitive(c), codac_Trajectory.cpp 457-477 *)
Definition traj_primitive (c : R) (x : traj) : option traj :=
  match t_fun x with
  | Some _ => None
  | None => set_all (prim_loop None c (t_map x)) traj_new
  end.

(** Loop of primitive(c,dt), codac_Trajectory.cpp 486-494; returns the trajectory, prev_t and val *)
Fixpoint prim_dt_loop (fuel : nat) (x : traj) (a b dt t prev_t val : R) (p : traj)
  : option (traj * R * R) :=
  match fuel with
  | O => Some (p, prev_t, val)
  | S n =>
      if Rltb t b then
        let nv := if Reqb t a then Some val
                  else match traj_at x (t - dt), traj_at x t with
                       | Some u, Some v => Some (val + (u + v) * dt / 2)
                       | _, _ => None
                       end in
        match nv with
        | Some val' => match traj_set val' t p with
                       | Some p' => prim_dt_loop n x a b dt (t + dt) t val' p'
                       | None => None
                       end
        | None => None
        end
      else Some (p, prev_t, val)
  end.
(** Trajectory::primitive(c,dt), codac_Trajectory.cpp 479-501 *)
Definition traj_primitive_dt (c dt : R) (x : traj) : option traj :=
  match t_dom x with
  | Itv (Some a) (Some b) =>
      if Rltb 0 dt then
        match prim_dt_loop (S (Z.to_nat (up ((b - a) / dt)))) x a b dt a a c traj_new with
        | Some (p, prev_t, val) =>
            match traj_at x prev_t, traj_at x b with
            | Some u, Some v => traj_set (val + (u + v) * (b - prev_t) / 2) b p
            | _, _ => None
            end
        | None => None
        end
      else None
  | _ => None
  end.

(** Test of the loop of constant_timestep, codac_Trajectory.cpp 366-369 *)
Fixpoint steps_are (h : R) (m : smap) : bool :=
  match m with
  | (k, _) :: (((k', _) :: _) as r) => Reqb (k + h) k' && steps_are h r
  | _ => true
  end.
(** Trajectory::constant_timestep, codac_Trajectory.cpp 361-372: the answer and the value given to h *)
Definition constant_timestep (m : smap) : option (bool * R) :=
  match m with
  | (k, _) :: (((k', _) :: _ :: _)) => Some (steps_are (k' - k) m, k' - k)
  | _ => None
  end.

(** The samples before and after the key [t], nearest first, codac_Trajectory.cpp 564-588 (not yet
    limited to four); [None] if [t] is not a key *)
Fixpoint around (before : list R) (t : R) (m : smap) : option (list R * R * list R) :=
  match m with
  | [] => None
  | (k, v) :: r => if Reqb k t then Some (before, v, map snd r) else around (v :: before) t r
  end.

(** The coefficients of the finite differences, codac_Trajectory.cpp 590-636 *)
Definition fd_formula (bwd : list R) (x : R) (fwd : list R) (h : R) : option R :=
  if Nat.eqb (length fwd) (length bwd) then
    match bwd, fwd with
    | [b0], [f0] => Some (((-1/2)*b0 + (1/2)*f0) / h)
    | [b0;b1], [f0;f1] => Some (((1/12)*b1 + (-2/3)*b0 + (2/3)*f0 + (-1/12)*f1) / h)
    | [b0;b1;b2], [f0;f1;f2] =>
        Some (((-1/60)*b2 + (3/20)*b1 + (-3/4)*b0 + (3/4)*f0 + (-3/20)*f1 + (1/60)*f2) / h)
    | [b0;b1;b2;b3], [f0;f1;f2;f3] =>
        Some (((1/280)*b3 + (-4/105)*b2 + (1/5)*b1 + (-4/5)*b0 + (4/5)*f0 + (-1/5)*f1 + (4/105)*f2 + (-1/280)*f3) / h)
    | _, _ => None
    end
  else if Nat.ltb (length bwd) (length fwd) then
    match fwd with
    | [f0] => Some (((-1/1)*x + (1/1)*f0) / h)
    | [f0;f1] => Some (((-3/2)*x + (2/1)*f0 + (-1/2)*f1) / h)
    | [f0;f1;f2] => Some (((-11/6)*x + (3/1)*f0 + (-3/2)*f1 + (1/3)*f2) / h)
    | [f0;f1;f2;f3] => Some (((-25/12)*x + (4/1)*f0 + (-3/1)*f1 + (4/3)*f2 + (-1/4)*f3) / h)
    | _ => None
    end
  else
    match bwd with
    | [b0] => Some (((1/1)*x + (-1/1)*b0) / h)
    | [b0;b1] => Some (((3/2)*x + (-2/1)*b0 + (1/2)*b1) / h)
    | [b0;b1;b2] => Some (((11/6)*x + (-3/1)*b0 + (3/2)*b1 + (-1/3)*b2) / h)
    | [b0;b1;b2;b3] => Some (((25/12)*x + (-4/1)*b0 + (3/1)*b1 + (-4/3)*b2 + (1/4)*b3) / h)
    | _ => None
    end.

(** Trajectory::finite_diff(t,h), codac_Trajectory.cpp 557-637 *)
Definition finite_diff (m : smap) (t h : R) : option R :=
  match m with
  | _ :: _ :: _ :: _ =>
      match around [] t m with
      | Some (bwd, x, fwd) => fd_formula (firstn 4 bwd) x (firstn 4 fwd) h
      | None => None
      end
  | _ => None
  end.

(** Evaluation of finite_diff at each sample, loop codac_Trajectory.cpp 542-543 *)
Fixpoint diff_loop (m : smap) (h : R) (l : smap) (d : traj) : option traj :=
  match l with
  | [] => Some d
  | (k, _) :: r =>
      match finite_diff m k h with
      | Some v => match traj_set v k d with Some d' => diff_loop m h r d' | None => None end
      | None => None
      end
  end.

(** Loop building d_cst_h, codac_Trajectory.cpp 528-530; the step is the one left in [h] by
    constant_timestep, the first step (mean_h, 521-525, is computed but not used) *)
Fixpoint resample_loop (fuel : nat) (x : traj) (t b h : R) (d : traj) : option traj :=
  match fuel with
  | O => Some d
  | S n =>
      if Rltb t (b + h) then
        match traj_at x (Rmin b t) with
        | Some v => match traj_set v t d with Some d' => resample_loop n x (t + h) b h d' | None => None end
        | None => None
        end
      else Some d
  end.

(** Trajectory::diff, codac_Trajectory.cpp 503-555, MAP_OF_VALUES case.  The recursive call 534 is on
    a trajectory of constant timestep (assert 532), so it enters the loop 542-543. *)
Definition traj_diff (x : traj) : option traj :=
  match t_fun x with
  | Some _ => None
  | None =>
      match constant_timestep (t_map x) with
      | None => None
      | Some (true, h) => diff_loop (t_map x) h (t_map x) traj_new
      | Some (false, h) =>
          match t_dom x with
          | Itv (Some a) (Some b) =>
              match resample_loop (S (Z.to_nat (up ((b + h - a) / h)))) x a b h traj_new with
              | Some dc =>
                  match constant_timestep (t_map dc) with
                  | Some (true, h') =>
                      match diff_loop (t_map dc) h' (t_map dc) traj_new with
                      | Some d => traj_truncate a b d
                      | None => None
                      end
                  | _ => None
                  end
              | None => None
              end
          | _ => None
          end
      end
  end.

(** ** Arithmetic *)

(** Application of a function to each value of the map, codac_traj_arithmetic_scalar.cpp 24-118,
    146-174, 209-237: [-x], [f(x)], [x op c], [c op x]; the samples are those of x *)
Definition map_vals (f : R -> R) (m : smap) : smap := map (fun kv => (fst kv, f (snd kv))) m.
(** The same functions on trajectories: the result is built by Trajectory(map);
    codac_traj_arithmetic_scalar.cpp 24-118, 146-174, 209-237 *)
Definition traj_unary (f : R -> R) (x : traj) : option traj :=
  match t_fun x with None => Some (traj_map (map_vals f (t_map x))) | Some _ => None end.

(** Trajectory::operator op=(double), codac_Trajectory_operators.cpp 20-29; [f] is the operation on
    values, [F] the one on the codomain *)
Definition traj_assign_scal (f : R -> R) (F : itv -> itv) (x : traj) : option traj :=
  match t_fun x with
  | None => Some (mkT (t_dom x) (F (t_cod x)) None (map_vals f (t_map x)))
  | Some _ => None
  end.

(** Values of [this op x] at the samples, loop codac_Trajectory_operators.cpp 42-43 *)
Fixpoint assign_loop (op : R -> R -> R) (x : traj) (m : smap) : option smap :=
  match m with
  | [] => Some []
  | (k, v) :: r =>
      match traj_at x k, assign_loop op x r with
      | Some u, Some l => Some ((k, op u v) :: l)
      | _, _ => None
      end
  end.
(** Trajectory::operator op=(const Trajectory& y), codac_Trajectory_operators.cpp 31-48; the
    definition type of the left-hand side is left as it is *)
Definition traj_assign (op : R -> R -> R) (y x : traj) : option traj :=
  if itv_eqb (t_dom x) (t_dom y) then
    match t_fun x, t_fun y with
    | Some _, Some _ => None
    | fx, _ =>
        match (match fx with None => traj_sample_as x y | Some _ => Some y end) with
        | Some ys =>
            match assign_loop op x (t_map ys) with
            | Some m => Some (compute_codomain (mkT (t_dom x) (t_cod x) (t_fun x) m))
            | None => None
            end
        | None => None
        end
    end
  else None.

(** Parallel iteration over two maps, codac_traj_arithmetic_scalar.cpp 137-141 and 200-204: goes on
    until the end of the first one; [None]: the second iterator is at the end *)
Fixpoint zip_loop (op : R -> R -> R) (m1 m2 : smap) : option smap :=
  match m1, m2 with
  | [], _ => Some []
  | (k, v) :: r1, (_, w) :: r2 =>
      match zip_loop op r1 r2 with Some l => Some ((k, op v w) :: l) | None => None end
  | _ :: _, [] => None
  end.

(** Sampling of the two operands on each other, codac_traj_arithmetic_scalar.cpp 128-132, 190-194 *)
Definition sample_both (x1 x2 : traj) : option (traj * traj) :=
  match t_fun x1, t_fun x2 with
  | Some _, Some _ => None
  | _, _ =>
      match (match t_fun x2 with None => traj_sample_as x2 x1 | Some _ => Some x1 end),
            (match t_fun x1 with None => traj_sample_as x1 x2 | Some _ => Some x2 end) with
      | Some s1, Some s2 => Some (s1, s2)
      | _, _ => None
      end
  end.

(** operators + - * / on two trajectories, codac_traj_arithmetic_scalar.cpp 120-144 *)
Definition traj_binary (op : R -> R -> R) (x1 x2 : traj) : option traj :=
  if itv_eqb (t_dom x1) (t_dom x2) then
    match sample_both x1 x2 with
    | Some (s1, s2) =>
        match zip_loop op (t_map s1) (t_map s2) with
        | Some m => Some (traj_map m)
        | None => None
        end
    | None => None
    end
  else None.

(** atan2, min and max on two trajectories, codac_traj_arithmetic_scalar.cpp 182-207: the maps that
    are read (195) are those of the arguments, not those of the sampled copies; sampled_map() (135)
    asserts that both are sampled *)
Definition traj_binary_f (op : R -> R -> R) (x1 x2 : traj) : option traj :=
  if itv_eqb (t_dom x1) (t_dom x2) then
    match sample_both x1 x2 with
    | Some _ =>
        match t_fun x1, t_fun x2 with
        | None, None =>
            match zip_loop op (t_map x1) (t_map x2) with
            | Some m => Some (traj_map m)
            | None => None
            end
        | _, _ => None
        end
    | None => None
    end
  else None.
