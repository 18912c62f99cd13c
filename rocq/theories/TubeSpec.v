(** * Specification of tubes: which trajectories a tube contains, when a tube is well formed

    Nothing here refers to the functions of the model, only to the stored values. *)

From Coq Require Import Reals Lra Bool List Arith Lia.
From Verif Require Import Itv Tube.
Import ListNotations.
Open Scope R_scope.

(** A trajectory [f] goes through the slice [s]: in the gates at both ends of the slice's
    domain, in the codomain in between. *)
Definition slice_has (s : slice) (f : R -> R) : Prop :=
  In (f (s_lb s)) (s_in s) /\ In (f (s_ub s)) (s_out s) /\
  forall t, s_lb s < t < s_ub s -> In (f t) (s_cod s).

(** The set of trajectories represented by a tube. *)
Definition has (x : tube) (f : R -> R) : Prop := forall s, List.In s x -> slice_has s f.

(** [x] covers exactly the temporal domain [a,b]. *)
Fixpoint chain_from (a : R) (x : tube) (b : R) : Prop :=
  match x with
  | [] => a = b
  | s :: r => s_lb s = a /\ s_lb s < s_ub s /\ chain_from (s_ub s) r b
  end.

(** neighbours agree on the value of their common gate *)
Fixpoint gates_shared (x : tube) : Prop :=
  match x with
  | [] => True
  | s1 :: r => match r with [] => True | s2 :: _ => s_out s1 = s_in s2 end /\ gates_shared r
  end.

(** Slice-level consistency: valid intervals, gates included in the codomain. *)
Definition slice_ok (s : slice) : Prop :=
  wf (s_cod s) /\ wf (s_in s) /\ wf (s_out s) /\
  sub (s_in s) (s_cod s) /\ sub (s_out s) (s_cod s).

(** A well-formed tube over [a,b]: a non-empty contiguous partition of [a,b] into
    non-degenerate slices, with consistent shared gates. *)
Record tube_ok (a b : R) (x : tube) : Prop := {
  ok_ne : x <> [];
  ok_chain : chain_from a x b;
  ok_shared : gates_shared x;
  ok_slices : Forall slice_ok x
}.

(** Same slicing: same temporal domains, slice by slice. *)
Definition same_dom (x y : tube) : Prop :=
  map (fun s => (s_lb s, s_ub s)) x = map (fun s => (s_lb s, s_ub s)) y.
