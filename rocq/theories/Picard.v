(** * Model of [codac::CtcPicard] (/repo/src/core/contractors/dyn/codac_CtcPicard.cpp)

    A TubeVector is the list of its components, which share the same slicing (codac_CtcPicard.cpp 114, 138).
    The arithmetic of IBEX is given by [arith]; [mid] is Interval::mid, any function.  Simplifications: the
    loops have fuel ([None]: not finished), the bounds of temporal domains and their differences are exact,
    [m_picard_iterations] and the messages are not modelled. *)
From Coq Require Import Reals Bool List Arith.
From Verif Require Import Itv Arith Tube TubeOps CtcDelay Static.
Import ListNotations.
Open Scope R_scope.

(** ** Boxes of IBEX (ibex::IntervalVector, included by codac_IntervalVector.h 15-21) *)
(** operator+ of two vectors, used in codac_CtcPicard.cpp 241 and 249 *)
Definition b_add (A : arith) (x y : box) : box :=
  if b_is_empty x || b_is_empty y then b_set_empty x else map2 (iadd A) x y.
(** product of an interval by a vector, used in codac_CtcPicard.cpp 241 and 249 *)
Definition b_scal (A : arith) (h : itv) (x : box) : box := map (imul A h) x.
(** IntervalVector::is_unbounded, used in codac_CtcPicard.cpp 75 *)
Definition b_unbounded (x : box) : bool := negb (b_is_empty x) && existsb is_unbounded x.
(** IntervalVector::is_interior_subset, used in codac_CtcPicard.cpp 259: all the pairs of components *)
Fixpoint all_interior (x y : box) : bool :=
  match x, y with i :: x, j :: y => is_interior_subset i j && all_interior x y | _, _ => true end.
(** IntervalVector::is_interior_subset, used in codac_CtcPicard.cpp 259 *)
Definition b_interior (x y : box) : bool :=
  if b_is_empty x then true else if b_is_empty y then false else all_interior x y.

(** is_unbounded, codac_CtcPicard.cpp 73-81: [-99999,99999] counts as unbounded *)
Definition picard_unbounded (x : box) : bool := b_unbounded x || existsb (fun i => itv_eqb i (bnd (-99999) 99999)) x.

(** ** Functions (codac_TFnc.h 33-43): what CtcPicard calls *)
(** [f_inter]: is_intertemporal(); [f_box]: eval_vector(box); [f_k]: eval_vector(k, x).  codac_TFnc.h 33-43 *)
Record tfnc : Type := mkF { f_inter : bool; f_box : box -> box; f_k : nat -> list tube -> box }.
(** TubeVector::operator()(int), codac_TubeVector.cpp 353-360, used in codac_CtcPicard.cpp 109 and 206 *)
Definition cod_k (k : nat) (xs : list tube) : box := map s_cod (slices_at k xs).
(** TFunction, codac_TFunction.cpp 296-322: [F] is the function of IBEX, [m] the dimension of its image; at least one variable *)
Definition tfunction (F : box -> box) (m : nat) : tfnc :=
  mkF false F (fun k xs =>
    match slices_at k xs with
    | [] => []
    | s :: _ => if b_is_empty (cod_k k xs) then repeat Emp m else F (s_dom s :: cod_k k xs)
    end).

Section Picard.
  Variable A : arith.
  Variable mid : itv -> R.
  Variables delta eps : R.     (* m_delta, EPSILON (codac_CtcPicard.cpp 17) *)
  Variable F : tfnc.

  (** one component of x_guess, codac_CtcPicard.cpp 230-233 *)
  Definition widen (i : itv) : itv :=
    iadd A (iadd A (pt (mid i)) (imul A (pt delta) (isub A i (pt (mid i))))) (bnd (- eps) eps).
  (** the tests of codac_CtcPicard.cpp 252 and 262 *)
  Definition picard_bad (encl guess : box) : bool := picard_unbounded encl || b_is_empty encl || b_is_empty guess.

  (** the loop of codac_CtcPicard.cpp 222-259 when the function is not intertemporal; [Some None]: break of line 257 *)
  Fixpoint guess_loop (n : nat) (t h : itv) (x0 init encl : box) : option (option box) :=
    match n with
    | O => None
    | S n =>
        let guess := map widen encl in
        let encl := b_add A x0 (b_scal A h (f_box F (t :: b_inter guess init))) in
        if picard_bad encl guess then Some None
        else if b_interior encl guess then Some (Some encl) else guess_loop n t h x0 init encl
    end.
  (** set_envelope on each component, codac_CtcPicard.cpp 239-240, 255-256 and 263-264 *)
  Definition put_env (k : nat) (y : box) (xs : list tube) : list tube := on_comps (fun e x => set_envelope k e true x) y xs.
  (** the same loop when the function is intertemporal: the tubes are updated (codac_CtcPicard.cpp 235-242 and 254-256) *)
  Fixpoint guess_loop_inter (n : nat) (k : nat) (h : itv) (x0 init encl : box) (xs : list tube) : option (option box * list tube) :=
    match n with
    | O => None
    | S n =>
        let guess := map widen encl in
        let xs := put_env k (map2 inter guess init) xs in
        let encl := b_add A x0 (b_scal A h (f_k F k xs)) in
        if picard_bad encl guess then Some (None, put_env k init xs)
        else if b_interior encl guess then Some (Some encl, xs) else guess_loop_inter n k h x0 init encl xs
    end.
  (** TubeVector::is_empty, codac_TubeVector.cpp 734-740: a component is empty *)
  Definition v_is_empty (xs : list tube) : bool := existsb tube_is_empty xs.
  (** x(t), codac_TubeVector.cpp 362-368 *)
  Definition v_eval (xs : list tube) (t : R) : box := map (fun x => eval_t x t) xs.

  (** guess_kth_slices_envelope, codac_CtcPicard.cpp 195-277; [fwd]: FORWARD, otherwise BACKWARD *)
  Definition guess_kth (n : nat) (fwd : bool) (k : nat) (xs : list tube) : option (list tube) :=
    if v_is_empty xs then Some xs
    else match slices_at k xs with
    | [] => Some xs
    | s :: _ =>
        let d := s_ub s - s_lb s in
        let init := cod_k k xs in
        let x0 := v_eval xs (if fwd then s_lb s else s_ub s) in
        let xf := v_eval xs (if fwd then s_ub s else s_lb s) in
        let h := if fwd then bnd 0 d else bnd (- d) 0 in
        if f_inter F then
          match guess_loop_inter n k h x0 init x0 xs with
          | Some (r, xs) =>
              let xs := match r with Some encl => put_env k (map2 inter init encl) xs | None => xs end in
              Some (on_comps (fun g x => if fwd then set_output_gate k g true x else set_input_gate k g true x) xf xs)
          | None => None
          end
        else
          match guess_loop n (s_dom s) h x0 init x0 with
          | Some (Some encl) => Some (put_env k (map2 inter init encl) xs)
          | Some None => Some xs
          | None => None
          end
    end.

  (** the gate of a component, codac_CtcPicard.cpp 181-183 and 189-191; [v]: the component of f_eval *)
  Definition picard_gate (fwd : bool) (k : nat) (v : itv) (x : tube) : tube :=
    match nth_error x k with
    | Some s =>
        let p := imul A (pt (s_ub s - s_lb s)) v in
        if fwd then set_output_gate k (inter (s_out s) (iadd A (s_in s) p)) true x
        else set_input_gate k (inter (s_in s) (isub A (s_out s) p)) true x
    | None => x
    end.
  (** contract_kth_slices, codac_CtcPicard.cpp 166-193 *)
  Definition contract_kth (n : nat) (fwd : bool) (k : nat) (xs : list tube) : option (list tube) :=
    if v_is_empty xs then Some xs
    else match guess_kth n fwd k xs with
    | Some xs => Some (on_comps (picard_gate fwd k) (f_k F k xs) xs)
    | None => None
    end.

  (** the condition of codac_CtcPicard.cpp 117 and 141, and the instant of lines 120 and 143 *)
  Definition to_split (k : nat) (xs : list tube) : option R :=
    match xs, slices_at k xs with
    | x :: _, s :: _ =>
        if picard_unbounded (cod_k k xs) && Rltb ((tf x - t0 x) / 500) (s_ub s - s_lb s)
        then Some ((s_lb s + s_ub s) / 2) else None
    | _, _ => None
    end.
  (** the loop of codac_CtcPicard.cpp 105-126; [nb]: nb_slices *)
  Fixpoint fwd_loop (n g : nat) (k nb : nat) (xs : list tube) : option (list tube) :=
    match n with
    | O => None
    | S n =>
        if Nat.ltb k nb then
          if negb (picard_unbounded (cod_k k xs)) then fwd_loop n g (S k) nb xs
          else match contract_kth g true k xs with
          | None => None
          | Some xs =>
              match to_split k xs with
              | Some t => fwd_loop n g k (S nb) (map (sample t) xs)
              | None => fwd_loop n g (S k) nb xs
              end
          end
        else Some xs
    end.
  (** the loop of codac_CtcPicard.cpp 131-148; [k1] is k+1 *)
  Fixpoint bwd_loop (n g : nat) (k1 : nat) (xs : list tube) : option (list tube) :=
    match n with
    | O => None
    | S n =>
        match k1 with
        | O => Some xs
        | S k =>
            if negb (picard_unbounded (cod_k k xs)) then bwd_loop n g k xs
            else match contract_kth g false k xs with
            | None => None
            | Some xs =>
                match to_split k xs with
                | Some t => bwd_loop n g (S (S k)) (map (sample t) xs)
                | None => bwd_loop n g k xs
                end
            end
        end
    end.
  (** codac_CtcPicard.cpp 151-157: the result on the first slicing *)
  Definition restore_slicing (first xs : list tube) : list tube :=
    map (fun p => tube_assign hull (tube_set Emp (fst p)) (snd p)) (combine first xs).
  (** contract(x, t_propa) for one direction, codac_CtcPicard.cpp 97-158; [preserve]: m_preserve_slicing *)
  Definition picard_dir (n g : nat) (preserve fwd : bool) (xs : list tube) : option (list tube) :=
    if v_is_empty xs then Some xs
    else
      let nb := match xs with x :: _ => length x | [] => 0%nat end in
      match (if fwd then fwd_loop n g 0 nb xs else bwd_loop n g nb xs) with
      | Some ys => Some (if preserve then restore_slicing xs ys else ys)
      | None => None
      end.
  (** contract(x, t_propa), codac_CtcPicard.cpp 83-159 *)
  Definition picard (n g : nat) (preserve fwd bwd : bool) (xs : list tube) : option (list tube) :=
    if v_is_empty xs then Some xs
    else if fwd && bwd then
      match picard_dir n g preserve true xs with Some ys => picard_dir n g preserve false ys | None => None end
    else if fwd then picard_dir n g preserve true xs
    else if bwd then picard_dir n g preserve false xs
    else Some (if preserve then restore_slicing xs xs else xs).
  (** contract(Tube, t_propa), codac_CtcPicard.cpp 64-71 *)
  Definition picard_tube (n g : nat) (preserve fwd bwd : bool) (x : tube) : option tube :=
    match picard n g preserve fwd bwd [x] with
    | Some (y :: _) => Some (tube_assign inter x y)
    | _ => None
    end.
End Picard.
