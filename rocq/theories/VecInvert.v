(** * Model of TubeVector::invert(y, search) and TubeVector::invert(y, v, search), the versions returning one interval

    /repo/src/core/domains/tube/codac_TubeVector.cpp 420-507 (macro_invert_union).  [None] stands for a failed assertion or the
    dereference of a null pointer.  The pointers [v_s[i]], [v_v[i]] are the heads of lists of slices: the slices that follow in
    the forward loop, the slices that precede (in reverse order) in the backward one. *)

From Coq Require Import Reals Bool List Arith.
Import ListNotations.
From Verif Require Import Itv Tube TubeOps CtcEval TubePaving TubeVecOps.
Open Scope R_scope.

(** [v_s[i]] and [v_v[i]], codac_TubeVector.cpp 435-436; without derivative the second one is not used *)
Definition cell : Type := (slice * slice)%type.
(** The pointers of the loops, [None] if one of them is null: all are dereferenced when the loop moves on,
    codac_TubeVector.cpp 454-458 and 474-478 *)
Fixpoint heads (xs : list (list cell)) : option (list cell) :=
  match xs with
  | [] => Some []
  | [] :: _ => None
  | (c :: _) :: r => match heads r with Some l => Some (c :: l) | None => None end
  end.
(** codac_TubeVector.cpp 450-452: the domain of the slice of the first component, intersected with the inversion of the slice of
    each component.  (An empty result stops the loop in the code; it stays empty here.) *)
Definition vloc (inv : slice -> slice -> itv -> itv -> itv) (a b : R) (y : list itv) (c0 : cell) (cs : list cell) : itv :=
  fold_left inter (map2 (fun c yi => inv (fst c) (snd c) yi (inter (bnd a b) (s_dom (fst c)))) (c0 :: cs) y) (s_dom (fst c0)).
(** The while loops 446-459 and 467-479 of codac_TubeVector.cpp: until the first non-empty inversion; [go] is the test on the
    slice of the first component *)
Fixpoint walk (inv : slice -> slice -> itv -> itv -> itv) (go : slice -> bool) (a b : R) (y : list itv) (x0 : list cell) (xs : list (list cell)) : option itv :=
  match x0 with
  | [] => Some Emp
  | c :: r =>
      if go (fst c) then
        match heads xs with
        | Some cs => let i := vloc inv a b y c cs in
                     if is_empty i then walk inv go a b y r (map (@tl cell) xs) else Some i
        | None => None
        end
      else Some Emp
  end.
(** [v_s[i] = this[i].slice(search.lb())] (and [v_v[i]]), codac_TubeVector.cpp 437-441 and 503 *)
Definition fwd_cells (a : R) (p : tube * tube) : list cell :=
  combine (skipn (time_to_index a (fst p)) (fst p)) (skipn (time_to_index a (snd p)) (snd p)).
(** [v_s[i] = this[i].slice(search.ub())] (and [v_v[i]]), codac_TubeVector.cpp 461-465 and 504 *)
Definition bwd_cells (b : R) (p : tube * tube) : list cell :=
  combine (rev (firstn (S (time_to_index b (fst p))) (fst p))) (rev (firstn (S (time_to_index b (snd p))) (snd p))).
(** macro_invert_union, codac_TubeVector.cpp 420-486 *)
Definition invert_union (inv : slice -> slice -> itv -> itv -> itv) (xs : list (tube * tube)) (y : list itv) (search : itv) : option itv :=
  if Nat.eqb (length xs) (length y) then
    match search with
    | Emp => Some Emp
    | Itv la ub =>
        match vec_tdomain (map fst xs), xs with
        | Some _, x0 :: r =>
            match la, ub with
            | Some a, Some b =>
                if Rltb a (t0 (fst x0)) || Rltb (tf (fst x0)) b then Some ALL
                else
                  match walk inv (fun s => Rltb (s_lb s) b) a b y (fwd_cells a x0) (map (fwd_cells a) r),
                        walk inv (fun s => Rltb a (s_ub s)) a b y (bwd_cells b x0) (map (bwd_cells b) r) with
                  | Some i, Some j => Some (hull i j)
                  | _, _ => None
                  end
            | _, _ => Some ALL
            end
        | _, _ => None
        end
    end
  else None.
(** TubeVector::invert(y, search), codac_TubeVector.cpp 488-493 *)
Definition vec_invert (xs : list tube) (y : list itv) (search : itv) : option itv :=
  invert_union (fun s _ => slice_invert s) (map (fun x => (x, x)) xs) y search.
(** TubeVector::invert(y, v, search), codac_TubeVector.cpp 495-507: the assertions 497-499, then the macro *)
Definition vec_invert_v (c : eval_cfg) (xs vs : list tube) (y : list itv) (search : itv) : option itv :=
  if Nat.eqb (length vs) (length y) && Nat.eqb (length xs) (length vs) && same_tdom (vec_tdomain xs) (vec_tdomain vs)
     && forallb (fun p => same_slicing (fst p) (snd p)) (combine xs vs)
  then invert_union (slice_invert_v c) (combine xs vs) y search else None.
