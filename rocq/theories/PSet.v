(** * Model of [codac::PSetNode] and [codac::SepPaving] (/repo/src/unsupported/paving/codac_PSetNode_impl.cpp,
      codac_SepPaving.cpp)

    The set operations of IBEX on boxes are those of Static.v and SepProj.v.  IntervalVector::diff ([diff]), mid()
    ([mid]), the bisector ([bis], [None] for NoBisectableVariableException) and the separator ([sep]) are those of IBEX;
    what is expected of them is in PropsPSet.v.  A node is a value: the addresses, the memory and the messages are not
    modelled.  Both children of a node exist or none of them does: this is so for all the functions below. *)

From Coq Require Import Reals Lra Bool List Arith.
Import ListNotations.
From Verif Require Import Itv Static Sivia Paving Separators SepProj.
Open Scope R_scope.

(** m_box_in, m_box_out, m_left, m_right: codac_PSetNode.h 199-203 *)
Inductive psn : Type := PLeaf (bi bo : box) | PNode (bi bo : box) (l r : psn).
(** m_box_in, codac_PSetNode_impl.cpp 64-67 *)
Definition ps_in (n : psn) : box := match n with PLeaf a _ | PNode a _ _ _ => a end.
(** m_box_out, codac_PSetNode_impl.cpp 59-62 *)
Definition ps_out (n : psn) : box := match n with PLeaf _ b | PNode _ b _ _ => b end.
(** assignment of m_box_in and m_box_out, for instance codac_PSetNode_impl.cpp 164-167 *)
Definition ps_set (a b : box) (n : psn) : psn := match n with PLeaf _ _ => PLeaf a b | PNode _ _ l r => PNode a b l r end.
(** PSetNode(box), codac_PSetNode_impl.cpp 20-21 *)
Definition ps_new (x : box) : psn := PLeaf x x.
(** is_empty, codac_PSetNode_impl.cpp 128-130 *)
Definition ps_is_empty (n : psn) : bool := b_is_empty (b_inter (ps_in n) (ps_out n)).
(** removeNode, codac_PSetNode_impl.cpp 103-126; [None] is the assertion of line 124 *)
Definition ps_remove (a b : box) (l r : psn) : option psn :=
  let children (n : psn) := match n with PLeaf _ _ => PLeaf a b | PNode _ _ l r => PNode a b l r end in
  match ps_is_empty l, ps_is_empty r with
  | true, true => Some (PLeaf a b)
  | false, true => Some (children l)
  | true, false => Some (children r)
  | false, false => None
  end.
(** reunite, codac_PSetNode_impl.cpp 132-183: the returned value and the node *)
Fixpoint ps_reunite (diff : box -> box -> list box) (n : psn) : option (bool * psn) :=
  match n with
  | PLeaf a b => Some (false, n)
  | PNode a b l r =>
      match ps_reunite diff l, ps_reunite diff r with
      | Some (s1, l), Some (s2, r) =>
          let x0 := b_hull a b in
          let a' := hull_all (b_hull (ps_in l) (ps_in r)) (diff x0 b) in
          let b' := hull_all (b_hull (ps_out l) (ps_out r)) (diff x0 a) in
          if ps_is_empty l || ps_is_empty r then option_map (fun m => (s1 || s2, m)) (ps_remove a' b' l r)
          else
            let x := b_inter a' b' in
            let cut m := ps_set (b_inter (ps_in m) x) (b_inter (ps_out m) x) m in
            Some (s1 || s2, PNode a' b' (cut l) (cut r))
      | _, _ => None
      end
  end.
(** IntervalVector::contains(Vector) of IBEX, used in codac_PSetNode_impl.cpp 187-188 *)
Fixpoint b_contains (x : box) (p : list R) : bool :=
  match x, p with [], [] => true | i :: x, v :: p => contains i v && b_contains x p | _, _ => false end.
(** ibex::BoolInterval, used in codac_PSetNode_impl.cpp 186-210 *)
Inductive boolitv : Type := BYes | BNo | BMaybe | BEmpty.
(** isInside, codac_PSetNode_impl.cpp 186-210 *)
Fixpoint ps_inside (n : psn) (p : list R) : boolitv :=
  match b_contains (ps_in n) p, b_contains (ps_out n) p with
  | true, false => BNo
  | false, true => BYes
  | false, false => BEmpty
  | true, true =>
      match n with
      | PLeaf _ _ => BMaybe
      | PNode _ _ l r =>
          if b_contains (ps_in l) p || b_contains (ps_out l) p then ps_inside l p
          else if b_contains (ps_in r) p || b_contains (ps_out r) p then ps_inside r p
          else BMaybe
      end
  end.
(** countLeaves, codac_PSetNode_impl.cpp 273-278 *)
Fixpoint ps_leaves (n : psn) : nat := match n with PLeaf _ _ => 1 | PNode _ _ l r => ps_leaves l + ps_leaves r end.

(** ** SepPaving *)
(** [x.max_diam() > eps] for a box that is not empty, codac_SepPaving.cpp 190 *)
Definition wider (eps : R) (x : box) : bool := dlt (Some eps) (max_diam x).
(** Sivia, codac_SepPaving.cpp 179-202, and bisect, codac_PSetNode_impl.cpp 212-221.  The nodes of the queue L are treated
    independently of each other: the loop is written as a recursion (simplification of the order).  [None]: the fuel is not
    enough, or an exception of the bisector. *)
Fixpoint ps_sivia (bis : box -> option (box * box)) (sep : sep_t) (eps : R) (fuel : nat) (n : psn) : option psn :=
  match fuel with
  | O => None
  | S fuel =>
      let (a, b) := sep (ps_in n) (ps_out n) in
      let x := b_inter a b in
      if negb (b_is_empty x) && wider eps x then
        match (match n with
               | PLeaf _ _ => option_map (fun c => (ps_new (fst c), ps_new (snd c))) (bis (b_inter b a))
               | PNode _ _ l r => Some (l, r)
               end) with
        | None => None
        | Some (l, r) =>
            match ps_sivia bis sep eps fuel l, ps_sivia bis sep eps fuel r with
            | Some l, Some r => Some (PNode a b l r)
            | _, _ => None
            end
        end
      else Some (ps_set a b n)
  end.
(** IntervalVector::is_flat() of IBEX, used in codac_SepPaving.cpp 238, then set_empty() *)
Definition clear_flat (x : box) : box := if b_is_empty x || b_is_flat x then b_set_empty x else x.
(** Sivia_ops, codac_SepPaving.cpp 204-251.  bisect_max (codac_PSetNode_impl.cpp 260-269) calls bisect_around (223-258),
    whose body is a comment: both do nothing.  Same simplification as in [ps_sivia]. *)
Fixpoint ps_ops (bis : box -> option (box * box)) (sep : sep_t) (eps : R) (intersection : bool) (fuel : nat) (n : psn)
    : option psn :=
  match fuel with
  | O => None
  | S fuel =>
      let x0 := b_hull (ps_in n) (ps_out n) in
      let (xin, xout) := sep x0 x0 in
      let a := if intersection then b_hull (ps_in n) xin else b_inter (ps_in n) xin in
      let b := if intersection then b_inter (ps_out n) xout else b_hull (ps_out n) xout in
      let x := b_inter a b in
      if negb (b_is_empty x) && wider eps x then
        match (match n with
               | PLeaf _ _ => option_map (fun c => (ps_new (fst c), ps_new (snd c))) (bis (b_inter b a))
               | PNode _ _ l r => Some (l, r)
               end) with
        | None => None
        | Some (l, r) =>
            let cut f m := ps_set (f (b_inter (ps_in m) (ps_in n))) (f (b_inter (ps_out m) (ps_out n))) m in
            match ps_ops bis sep eps intersection fuel (cut (fun x => x) l),
                  ps_ops bis sep eps intersection fuel (cut clear_flat r) with
            | Some l, Some r => Some (PNode a b l r)
            | _, _ => None
            end
        end
      else if b_is_empty x || dlt (max_diam x) (Some eps) then Some (PLeaf a b)
      else Some (ps_set a b n)
  end.
(** one turn of the loop of codac_SepPaving.cpp 140-155: xborder and the queue L *)
Definition ps_turn (x border : box) (n : psn) (q : list psn) : box * list psn :=
  match n with
  | PLeaf a b => (b_hull border (b_inter x (b_inter a b)), q)
  | PNode _ _ l r =>
      let keep m := let y := b_inter (b_inter (ps_in m) (ps_out m)) x in
        negb (b_is_empty y) && negb (b_is_subset y border) in
      (border, q ++ (if keep l then [l] else []) ++ (if keep r then [r] else []))
  end.
(** the loop, codac_SepPaving.cpp 140-155 *)
Fixpoint ps_border (x : box) (fuel : nat) (border : box) (q : list psn) : box :=
  match q, fuel with
  | n :: q, S fuel => let (border, q) := ps_turn x border n q in ps_border x fuel border q
  | _, _ => border
  end.
(** the number of nodes, that bounds the number of turns of the loop of codac_SepPaving.cpp 140-155 *)
Fixpoint ps_size (n : psn) : nat := match n with PLeaf _ _ => 1 | PNode _ _ l r => S (ps_size l + ps_size r) end.
(** the loop on the boxes out of xborder, codac_SepPaving.cpp 162-174 *)
Definition ps_give (mid : box -> list R) (root : psn) (l : list box) (x : box * box) : box * box :=
  fold_left (fun x d => match ps_inside root (mid d) with
                        | BYes => (fst x, b_hull (snd x) d)
                        | BNo | BEmpty => (b_hull (fst x) d, snd x)
                        | BMaybe => (b_hull (fst x) d, b_hull (snd x) d)
                        end) l x.
(** separate, codac_SepPaving.cpp 131-176 *)
Definition ps_separate (diff : box -> box -> list box) (mid : box -> list R) (root : psn) : sep_t := fun xin xout =>
  let x0 := b_hull xin xout in
  let x := b_inter xin xout in
  let border := ps_border x (ps_size root) (b_set_empty xin) [root] in
  ps_give mid root (diff x0 border) (b_inter xin border, b_inter xout border).
