(** * Temporal functions of tubes

    TFunction::eval_vector (codac_TFunction.cpp 344-419), TFnc::eval_vector (codac_TFnc.cpp 72-119),
    DelayTFunction (codac_DelayTFunction.cpp 29-44), TubeVector::resize (codac_TubeVector.cpp 216-240).

    Simplifications: those of Tube.v; [F] is ibex::Function::eval_vector (the box starts with the time); a vector of
    tubes is a list; [None] for a null pointer or an assertion. *)

From Coq Require Import Reals Bool List Arith.
From Verif Require Import Itv Tube TubeOps.
Import ListNotations.
Open Scope R_scope.

(** TubeVector::resize, codac_TubeVector.cpp 216-240; the assertion n > 0 of line 218 is a hypothesis *)
Definition tv_resize (n : nat) (x : list tube) : list tube :=
  match x with
  | [] => []
  | x0 :: _ => firstn n x ++ repeat (tube_set ALL x0) (n - length x)
  end.
(** the slices [k] of the components: the pointers v_sx after [k] calls of next_slice(), codac_TFunction.cpp 375-391;
    [None]: a null pointer is read *)
Fixpoint row (x : list tube) (k : nat) : option (list slice) :=
  match x with
  | [] => Some []
  | t :: r =>
      match nth_error t k, row r k with
      | Some s, Some l => Some (s :: l)
      | _, _ => None
      end
  end.
(** set_envelope(c[i], false) and set_input_gate(g[i], false) on the slices [k] of the components of [y],
    codac_TFunction.cpp 397-405, codac_TFnc.cpp 104-108 *)
Fixpoint write_row (k : nat) (c g : list itv) (y : list tube) : option (list tube) :=
  match y, c, g with
  | [], _, _ => Some []
  | t :: r, ci :: c', gi :: g' =>
      match nth_error t k, write_row k c' g' r with
      | Some _, Some r' => Some (set_input_gate k gi false (set_envelope k ci false t) :: r')
      | _, _ => None
      end
  | _, _, _ => None
  end.
(** set_output_gate(g[i], false) on the slices [k], codac_TFunction.cpp 413-414, codac_TFnc.cpp 114-115 *)
Fixpoint write_out (k : nat) (g : list itv) (y : list tube) : option (list tube) :=
  match y, g with
  | [], _ => Some []
  | t :: r, gi :: g' =>
      match nth_error t k, write_out k g' r with
      | Some _, Some r' => Some (set_output_gate k gi false t :: r')
      | _, _ => None
      end
  | _, _ => None
  end.
(** the loop on the slices, codac_TFunction.cpp 375-407, codac_TFnc.cpp 91-110; [E k]: the values for the slices [k] *)
Fixpoint rows (ks : list nat) (E : nat -> option (list itv * list itv)) (y : list tube) : option (list tube) :=
  match ks with
  | [] => Some y
  | k :: r =>
      match E k with
      | Some (c, g) => match write_row k c g y with Some y' => rows r E y' | None => None end
      | None => None
      end
  end.
(** the loop, then the output gates; [m]: the number of slices of the first component of x (of y in codac_TFnc.cpp);
    codac_TFunction.cpp 375-414, codac_TFnc.cpp 91-115 *)
Definition tv_eval (m : nat) (E : nat -> option (list itv * list itv)) (Eo : option (list itv)) (y : list tube) : option (list tube) :=
  match rows (seq 0 m) E y with
  | Some y1 => match Eo with Some g => write_out (m - 1) g y1 | None => None end
  | None => None
  end.

(** TFunction::eval_vector(TubeVector), codac_TFunction.cpp 344-419; [n]: image_dim(); the assertion of line 354 is a
    hypothesis *)
Definition tfunction_eval (F : list itv -> list itv) (n : nat) (x : list tube) : option (list tube) :=
  match x with
  | [] => None
  | x0 :: _ =>
      let y := tv_resize n x in
      if existsb tube_is_empty x then Some (map (tube_set Emp) y)
      else
        tv_eval (length x0)
          (fun k => match row x k with
                    | Some (s0 :: l) => Some (F (s_dom s0 :: map s_cod (s0 :: l)), F (pt (s_lb s0) :: map s_in (s0 :: l)))
                    | _ => None
                    end)
          (match row x (length x0 - 1) with
           | Some (s0 :: l) => Some (F (pt (s_ub s0) :: map s_out (s0 :: l)))
           | _ => None
           end) y
  end.
(** TFnc::eval_vector(TubeVector), codac_TFnc.cpp 72-119; [E] is the virtual eval_vector(t, x) *)
Definition tfnc_eval (E : itv -> option (list itv)) (n : nat) (x : list tube) : option (list tube) :=
  let y := tv_resize n x in
  if existsb tube_is_empty x then Some (map (tube_set Emp) y)
  else
    match y with
    | [] => None
    | y0 :: _ =>
        tv_eval (length y0)
          (fun k => match nth_error y0 k with
                    | Some s => match E (s_dom s), E (pt (s_lb s)) with Some c, Some g => Some (c, g) | _, _ => None end
                    | None => None
                    end)
          (match nth_error y0 (length y0 - 1) with Some s => E (pt (s_ub s)) | None => None end) y
    end.
(** TFunction::eval_vector(t, x), codac_TFunction.cpp 324-342, for a function of all components; the assertion of line
    329 on the temporal domain *)
Definition tfunction_at (F : list itv -> list itv) (n : nat) (x : list tube) (t : itv) : option (list itv) :=
  match x with
  | [] => None
  | x0 :: _ =>
      if is_subset t (Itv (Some (t0 x0)) (Some (tf x0))) then
        if existsb is_empty (map (fun xi => eval_itv xi t) x) then Some (repeat Emp n)
        else Some (F (t :: map (fun xi => eval_itv xi t) x))
      else None
  end.
(** the translation of an interval by a number, ibex::Interval (codac_DelayTFunction.cpp 39) *)
Definition shift_itv (d : R) (i : itv) : itv :=
  match i with Emp => Emp | Itv l h => Itv (option_map (fun v => v + d) l) (option_map (fun v => v + d) h) end.
(** DelayTFunction::eval_vector, codac_DelayTFunction.cpp 35-44 *)
Definition delay_at (d : R) (x : list tube) (t : itv) : option (list itv) :=
  match x with
  | [] => None
  | x0 :: _ =>
      let D := Itv (Some (t0 x0)) (Some (tf x0)) in
      if is_subset t D then
        if is_subset (shift_itv d t) D then Some (map (fun xi => eval_itv xi (shift_itv d t)) x) else Some (map (fun _ => ALL) x)
      else None
  end.
(** DelayTFunction(d) of a tube: TFnc::eval_vector with one variable and one component (TFnc(1, 1, true));
    codac_DelayTFunction.cpp 19, codac_TFnc.cpp 66-70 *)
Definition delay_eval (d : R) (x : tube) : option tube :=
  match tfnc_eval (delay_at d [x]) 1 [x] with Some (y :: _) => Some y | _ => None end.
