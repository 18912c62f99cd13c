(** * Octahedral symmetries and the contractors they give

    Models /repo/src/core/2/actions/codac2_Action.cpp and
    /repo/src/core/2/contractors/codac2_CtcAction.cpp.  [std::vector<int>] is a list of integers (no
    overflow).  Reading a component out of range is undefined in the code; here it gives a default
    value, and no theorem relies on it. *)

From Coq Require Import Reals Lra Bool List Arith ZArith.
Import ListNotations.
From Verif Require Import Itv Arith Static.
Open Scope R_scope.

(** codac2_Action.cpp 19-22 and 46: [sign(a)*x], the product of IBEX by the degenerated interval 1, -1 or 0, which is
    exact in each of the cases. *)
Definition sign_mul (a : Z) (i : itv) : itv :=
  if (0 <? a)%Z then i else if (a <? 0)%Z then xneg i else if is_empty i then Emp else pt 0.

(** codac2_Action.cpp 24-27 *)
Definition isign (a : Z) : Z := if (0 <? a)%Z then 1%Z else if (a <? 0)%Z then (-1)%Z else 0%Z.

(** the index [abs(a)-1] of lines 46, 54 and 67 of codac2_Action.cpp *)
Definition idx (a : Z) : nat := Z.to_nat (Z.abs a - 1).

(** The assertion of the constructor, codac2_Action.cpp 29-35: [None] when it fails.  It does not test that no component
    is repeated. *)
Definition octa_new (s : list Z) : option (list Z) :=
  if forallb (fun i => ((0 <? Z.abs i)%Z && (Z.abs i <=? Z.of_nat (length s))%Z)%bool) s then Some s else None.

(** codac2_Action.cpp 41-48 [OctaSym::operator()(const IntervalVector&)]; [None]: the assertion on the sizes fails *)
Definition act (s : list Z) (x : box) : option box :=
  if Nat.eqb (length x) (length s) then Some (map (fun a => sign_mul a (nth (idx a) x Emp)) s) else None.

(** assignment of a component of a vector, [v[k] = a] (codac2_Action.cpp 54, 67) *)
Fixpoint vset (k : nat) (a : Z) (v : list Z) : list Z :=
  match v, k with
  | [], _ => []
  | _ :: v, O => a :: v
  | b :: v, S k => b :: vset k a v
  end.

(** the loop of codac2_Action.cpp 53-54, [i] being the index of the first component of [s] *)
Fixpoint invert_loop (s : list Z) (i : nat) (inv : list Z) : list Z :=
  match s with
  | [] => inv
  | a :: s => invert_loop s (S i) (vset (idx a) (Z.of_nat (i + 1) * (if (0 <=? a)%Z then 1 else -1)) inv)
  end.
(** codac2_Action.cpp 50-56 [OctaSym::invert] *)
Definition invert (s : list Z) : list Z := invert_loop s 0 s.

(** codac2_Action.cpp 63-69 [operator*]: the result has the size of [s1]; [s2] is read up to this size *)
Definition compose (s1 s2 : list Z) : list Z :=
  map (fun i => (isign (nth i s2 0%Z) * nth (idx (nth i s2 0%Z)) s1 0%Z)%Z) (seq 0 (length s1)).

(** codac2_CtcAction.cpp 18-29.  [Ctc(2)] of line 19 fixes the number of variables announced to the other classes, not
    modelled.  [&=] is that of IBEX ([b_inter]). *)
Definition ctc_action (c : ctc_t) (s : list Z) (x : box) : option box :=
  match act s x with
  | None => None
  | Some x' => match act (invert s) (c x') with
               | None => None
               | Some x'' => Some (b_inter x x'')
               end
  end.
