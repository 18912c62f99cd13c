(** * Pavings

    Models /repo/src/core/paving/codac_Paving.cpp, codac_Set.h/.cpp, codac_SIVIAPaving.cpp and the constructor of
    codac_ConnectedSubset.cpp.  A paving is a binary tree of nodes identified by their address; the field m_root of a
    node is an address, it may be the one of a node of another tree (copies) or of a deleted one. *)

From Coq Require Import Reals Bool List Arith NArith.
Import ListNotations.
From Verif Require Import Itv Static Sivia.
Open Scope R_scope.

(** enum SetValue and its operators, codac_Set.h 26-56: integers, bitwise operations *)
Definition V_DEFAULT : N := 0.
(** codac_Set.h 30 *)
Definition V_UNKNOWN : N := 1.
(** codac_Set.h 31 *)
Definition V_OUT : N := 2.
(** codac_Set.h 32 *)
Definition V_IN : N := 4.
(** codac_Set.h, [a & b] used as a condition; codac_Set.h 45-46 *)
Definition meets (a b : N) : bool := negb (N.eqb (N.land a b) 0).

(** The fields m_box and m_value (codac_Set.h), m_root (codac_Paving.h), and the address of the node.  The field m_flag is
    in a separate map since it is mutable. codac_Set.h 113-114, codac_Paving.h 218-219 *)
Record cell : Type := mkC { c_addr : nat; c_box : box; c_val : N; c_root : nat }.
(** m_first_subpaving and m_second_subpaving (codac_Paving.h): both null (leaf) or both non null;
    codac_Paving.h 220 *)
Inductive pav : Type := Leaf (c : cell) | Node (c : cell) (p1 p2 : pav).
(** the node itself; codac_Paving.h 218-220 *)
Definition p_cell (p : pav) : cell := match p with Leaf c | Node c _ _ => c end.
(** the values of m_flag (codac_Paving.h), by address; codac_Paving.h 218 *)
Definition flags : Type := nat -> bool.
(** assignment of m_flag; codac_Paving.h 218 *)
Definition fset (a : nat) (b : bool) (f : flags) : flags := fun k => if Nat.eqb k a then b else f k.

(** dereference of a pointer to a node: search of an address in a tree; no source, memory of the program;
    codac_Paving.h 219-220 *)
Fixpoint find_in (a : nat) (p : pav) : option pav :=
  if Nat.eqb (c_addr (p_cell p)) a then Some p else
  match p with
  | Leaf _ => None
  | Node _ p1 p2 => match find_in a p1 with Some q => Some q | None => find_in a p2 end
  end.
(** The same among the trees that are alive.  [None]: dangling pointer. codac_Paving.h 219-220 *)
Fixpoint lookup (a : nat) (w : list pav) : option pav :=
  match w with [] => None | p :: w => match find_in a p with Some q => Some q | None => lookup a w end end.

(** Paving::Paving(box,value), codac_Paving.cpp 23-27: the node is its own root.  [a] is its address. *)
Definition new_paving (a : nat) (x : box) (v : N) : pav := Leaf (mkC a x v a).
(** Paving::Paving(p) and Paving::operator=, codac_Paving.cpp 29-39 and 50-65: the nodes are copied to new addresses,
    taken from [next]; each of them keeps the m_root of the original. *)
Fixpoint copy (p : pav) (next : nat) : pav * nat :=
  match p with
  | Leaf c => (Leaf (mkC next (c_box c) (c_val c) (c_root c)), S next)
  | Node c p1 p2 =>
      let (q1, n1) := copy p1 (S next) in
      let (q2, n2) := copy p2 n1 in
      (Node (mkC next (c_box c) (c_val c) (c_root c)) q1 q2, n2)
  end.
(** Paving::bisect, codac_Paving.cpp 118-129, on a leaf; [bis] is LargestFirst(0.,ratio).bisect (IBEX).  [None]: exception of the
    bisector. *)
Definition bisect_leaf (bis : box -> option (box * box)) (c : cell) (next : nat) : option (pav * nat) :=
  match bis (c_box c) with
  | Some (x1, x2) => Some (Node c (Leaf (mkC next x1 (c_val c) (c_root c))) (Leaf (mkC (S next) x2 (c_val c) (c_root c))), S (S next))
  | None => None
  end.
(** Set::set_value, codac_Set.cpp 45-48, on a leaf *)
Definition with_val (v : N) (c : cell) : cell := mkC (c_addr c) (c_box c) v (c_root c).

(** The leaves, from the first to the last one: used by the functions below that go through the tree;
    codac_Paving.cpp 172-196 *)
Fixpoint leaves (p : pav) : list cell := match p with Leaf c => [c] | Node _ p1 p2 => leaves p1 ++ leaves p2 end.

(** Paving::reset_flags, codac_Paving.cpp 153-158 *)
Fixpoint reset_flags (p : pav) (f : flags) : flags :=
  match p with
  | Leaf c => fset (c_addr c) false f
  | Node c p1 p2 => reset_flags p2 (reset_flags p1 (fset (c_addr c) false f))
  end.
(** Paving::get_first_leaf, codac_Paving.cpp 104-116, with without_flag = true; the flag() of a leaf is its m_flag (138-144) *)
Fixpoint get_first_leaf (val : N) (f : flags) (p : pav) : option cell :=
  match p with
  | Leaf c => if meets (c_val c) val && negb (f (c_addr c)) then Some c else None
  | Node _ p1 p2 => match get_first_leaf val f p1 with Some c => Some c | None => get_first_leaf val f p2 end
  end.
(** Paving::get_boxes, codac_Paving.cpp 172-196, after the assertion *)
Fixpoint get_boxes_loop (val neg_val : N) (p : pav) : list box :=
  let v := c_val (p_cell p) in
  if negb (N.eqb neg_val V_DEFAULT) && meets v neg_val && negb (meets v val) then []
  else match p with
       | Leaf c => if meets (c_val c) val then [c_box c] else []
       | Node _ p1 p2 => get_boxes_loop val neg_val p1 ++ get_boxes_loop val neg_val p2
       end.
(** Paving::get_boxes, codac_Paving.cpp 172-196.  [None]: the assertion fails. *)
Definition get_boxes (val neg_val : N) (p : pav) : option (list box) :=
  if meets val neg_val then None else Some (get_boxes_loop val neg_val p).
(** Paving::get_pavings_intersecting, codac_Paving.cpp 198-220, with no_degenerated_intersection = false (the only use in
    get_neighbours), after the assertion *)
Fixpoint intersecting (val : N) (b : box) (p : pav) : list cell :=
  if b_is_empty (b_inter b (c_box (p_cell p))) then []
  else match p with
       | Leaf c => if meets (c_val c) val then [c] else []
       | Node _ p1 p2 => intersecting val b p1 ++ intersecting val b p2
       end.
(** Paving::get_neighbours, codac_Paving.cpp 222-233, with without_flag = true, called on a leaf [e].  [w]: the trees
    that are alive.  [None]: m_root is dangling, or the box is not two-dimensional (assertion, line 203). *)
Definition get_neighbours (w : list pav) (val : N) (f : flags) (e : cell) : option (list cell) :=
  match lookup (c_root e) w with
  | None => None
  | Some root =>
      if Nat.eqb (length (c_box e)) 2
      then Some (filter (fun c => negb (Nat.eqb (c_addr c) (c_addr e)) && meets (c_val c) val && negb (f (c_addr c)))
                        (intersecting val (c_box e) root))
      else None
  end.
(** the loop of codac_Paving.cpp 253-269: [l] is the list of the items to be studied *)
Fixpoint subset_loop (w : list pav) (val : N) (fuel : nat) (f : flags) (items l : list cell) : option (list cell * flags) :=
  match l with
  | [] => Some (items, f)
  | e :: l =>
      match fuel with
      | O => None
      | S fuel =>
          let f := fset (c_addr e) true f in
          match get_neighbours w val f e with
          | None => None
          | Some v => subset_loop w val fuel (fold_left (fun f c => fset (c_addr c) true f) v f) (items ++ [e]) (l ++ v)
          end
      end
  end.
(** the loop of codac_Paving.cpp 247-272 *)
Fixpoint subsets_loop (w : list pav) (p : pav) (val : N) (fuel1 fuel2 : nat) (f : flags) (res : list (list cell)) : option (list (list cell)) :=
  match get_first_leaf val f p with
  | None => Some res
  | Some c =>
      match fuel1 with
      | O => None
      | S fuel1 =>
          match subset_loop w val fuel2 f [] [c] with
          | None => None
          | Some (items, f) => subsets_loop w p val fuel1 fuel2 f (res ++ [items])
          end
      end
  end.
(** Paving::get_connected_subsets, codac_Paving.cpp 240-278 (the sorting is commented out): the items of each subset.
    [fuel] bounds the number of iterations of each loop. *)
Definition get_connected_subsets (w : list pav) (p : pav) (val : N) (fuel : nat) (f : flags) : option (list (list cell)) :=
  subsets_loop w p val fuel fuel (reset_flags p f) [].
(** The box of a ConnectedSubset, codac_ConnectedSubset.cpp 20-27 *)
Definition subset_box (items : list cell) : box := fold_left (fun b c => b_hull b (c_box c)) items [Emp; Emp].

(** The three SIVIAPaving::compute (codac_SIVIAPaving.cpp 25-48, 50-70, 72-94) have the same structure: [test] tells the value of
    the box when it can be decided, otherwise the box is bisected or UNKNOWN.  As in the code, [compute] is called on
    a leaf.  The C casts of the sub-pavings (lines 45-46, 67-68, 91-92) are not modelled.  [fuel]: maximal depth. *)
Fixpoint compute (test : box -> option N) (bis : box -> option (box * box)) (precision : R) (fuel : nat) (c : cell) (next : nat)
  : option (pav * nat) :=
  match test (c_box c) with
  | Some v => Some (Leaf (with_val v c), next)
  | None =>
      if max_diam_lt precision (c_box c) then Some (Leaf (with_val V_UNKNOWN c), next)
      else match fuel, bis (c_box c) with
           | S fuel, Some (x1, x2) =>
               match compute test bis precision fuel (mkC next x1 (c_val c) (c_root c)) (S (S next)) with
               | Some (p1, n1) =>
                   match compute test bis precision fuel (mkC (S next) x2 (c_val c) (c_root c)) n1 with
                   | Some (p2, n2) => Some (Node c p1 p2, n2)
                   | None => None
                   end
               | None => None
               end
           | _, _ => None
           end
  end.
(** IntervalVector::is_subset of IBEX, used in codac_SIVIAPaving.cpp 33: true when the first box is empty *)
Definition b_is_subset (a b : box) : bool :=
  if b_is_empty a then true else if b_is_empty b then false else forallb (fun q => is_subset (fst q) (snd q)) (combine a b).
(** IntervalVector::intersects of IBEX, used in codac_SIVIAPaving.cpp 36 *)
Definition b_intersects (a b : box) : bool :=
  if b_is_empty a || b_is_empty b then false else forallb (fun q => negb (is_empty (inter (fst q) (snd q)))) (combine a b).
(** SIVIAPaving::compute(f,y,precision), codac_SIVIAPaving.cpp 31-37; [F] is f.eval_vector *)
Definition test_fun (F : box -> box) (y : box) (x : box) : option N :=
  let result := F x in
  if b_is_subset result y then Some V_IN else if negb (b_intersects result y) then Some V_OUT else None.
(** SIVIAPaving::compute(ctc,precision), codac_SIVIAPaving.cpp 55-59 *)
Definition test_ctc (ctc : ctc_t) (x : box) : option N := if b_is_empty (ctc x) then Some V_OUT else None.
(** SIVIAPaving::compute(sep,precision), codac_SIVIAPaving.cpp 75-83 *)
Definition test_sep (sep : sep_t) (x : box) : option N :=
  if b_is_empty (fst (sep x x)) then Some V_IN else if b_is_empty (snd (sep x x)) then Some V_OUT else None.
(** SIVIAPaving p(x); p.compute(...): codac_SIVIAPaving.cpp 20-23, then compute *)
Definition sivia_paving test bis precision (x : box) (fuel : nat) : option pav :=
  match compute test bis precision fuel (mkC 0 x V_UNKNOWN 0) 1 with Some (p, _) => Some p | None => None end.

(** ** Operations done by the user on a paving, at a node given by its address *)
(** Paving::bisect, codac_Paving.cpp 118-129.  [None]: exception of the bisector, the node is not a leaf (assertion, line 121) or
    does not exist. *)
Fixpoint bisect_at (bis : box -> option (box * box)) (a : nat) (p : pav) (next : nat) : option (pav * nat) :=
  match p with
  | Leaf c => if Nat.eqb (c_addr c) a then bisect_leaf bis c next else None
  | Node c p1 p2 =>
      if Nat.eqb (c_addr c) a then None else
      match bisect_at bis a p1 next with
      | Some (q1, n) => Some (Node c q1 p2, n)
      | None => match bisect_at bis a p2 next with Some (q2, n) => Some (Node c p1 q2, n) | None => None end
      end
  end.
(** Set::set_value, codac_Set.cpp 45-48 *)
Fixpoint set_at (a : nat) (v : N) (p : pav) : pav :=
  match p with
  | Leaf c => Leaf (if Nat.eqb (c_addr c) a then with_val v c else c)
  | Node c p1 p2 => Node (if Nat.eqb (c_addr c) a then with_val v c else c) (set_at a v p1) (set_at a v p2)
  end.
(** Paving::reset_paving, codac_Paving.cpp 160-168 *)
Fixpoint reset_at (a : nat) (v : N) (p : pav) : pav :=
  match p with
  | Leaf c => Leaf (if Nat.eqb (c_addr c) a then with_val v c else c)
  | Node c p1 p2 => if Nat.eqb (c_addr c) a then Leaf (with_val v c) else Node c (reset_at a v p1) (reset_at a v p2)
  end.
(** a call of one of them; codac_Paving.cpp 118-129, 160-168, codac_Set.cpp 45-48 *)
Inductive pop : Type := PBisect (a : nat) | PSet (a : nat) (v : N) | PReset (a : nat) (v : N).
(** the effect of a call on the paving and on the next free address;
    codac_Paving.cpp 118-129, 160-168, codac_Set.cpp 45-48 *)
Definition pstep (bis : box -> option (box * box)) (o : pop) (s : pav * nat) : option (pav * nat) :=
  match o with
  | PBisect a => bisect_at bis a (fst s) (snd s)
  | PSet a v => Some (set_at a v (fst s), snd s)
  | PReset a v => Some (reset_at a v (fst s), snd s)
  end.
(** a sequence of calls; codac_Paving.cpp 118-129, 160-168, codac_Set.cpp 45-48 *)
Fixpoint prun (bis : box -> option (box * box)) (os : list pop) (s : pav * nat) : option (pav * nat) :=
  match os with [] => Some s | o :: os => match pstep bis o s with Some s => prun bis os s | None => None end end.
