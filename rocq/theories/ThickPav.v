(** Pavings of thick sets: the binary tree [PNode] and the algorithms of [ThickPaving].

    Modelled files:
    - /repo/src/unsupported/thickset/codac_PNode_impl.hpp
    - /repo/src/unsupported/thickset/codac_ThickPaving.cpp

    A node is a tree value: its address, and the copies and deletions of nodes, are not modelled.
    Not modelled: [Intersect], [fastIntersection2], [Contract_distance_gt_ThickPaving] (marked as not
    working in the source), [erode], [FastSivia], visitors and drawing. *)

From Coq Require Import Reals List Bool.
From Verif Require Import Itv Static Paving Thick.
Import ListNotations.
Local Open Scope R_scope.

(** codac_PNode.h, lines 25-176: class [PNode<ThickBoolean>], members [m_value], [m_box], [m_left],
    [m_right]; the two children are both null or both set. *)
Inductive pn :=
| PnLeaf (v : tb) (b : box)
| PnNode (v : tb) (b : box) (l r : pn).

(** codac_PNode_impl.hpp, lines 56-60: [getBox]. *)
Definition pn_box (n : pn) : box := match n with PnLeaf _ b | PnNode _ b _ _ => b end.

(** codac_PNode_impl.hpp, lines 62-66: [value]. *)
Definition pn_val (n : pn) : tb := match n with PnLeaf v _ | PnNode v _ _ _ => v end.

(** codac_PNode_impl.hpp, lines 74-81: [height]. *)
Fixpoint pn_height (n : pn) : nat :=
  match n with PnLeaf _ _ => 1 | PnNode _ _ l r => 1 + Nat.max (pn_height l) (pn_height r) end.

(** codac_PNode_impl.hpp, lines 167-172: [countLeaves]. *)
Fixpoint pn_leaves (n : pn) : nat :=
  match n with PnLeaf _ _ => 1 | PnNode _ _ l r => pn_leaves l + pn_leaves r end.

(** codac_PNode_impl.hpp, lines 116-141: [reunite]; the second component is the returned boolean. *)
Fixpoint reunite (n : pn) : pn * bool :=
  match n with
  | PnLeaf _ _ => (n, false)
  | PnNode _ b l r =>
      let (l', bl) := reunite l in
      let (r', br) := reunite r in
      match l', r' with
      | PnLeaf vl _, PnLeaf vr _ =>
          if teqb vl vr then (PnLeaf vl b, true) else (PnNode (opUnion vl vr) b l' r', bl || br)
      | _, _ => (PnNode (opUnion (pn_val l') (pn_val r')) b l' r', bl || br)
      end
  end.

(** codac_PNode_impl.hpp, lines 143-152: [bisect] of a leaf; [bis] is ibex::Bsc::bisect. *)
Definition pn_bisect (bis : box -> box * box) (n : pn) : pn :=
  match n with
  | PnLeaf v b => let (b1, b2) := bis b in PnNode v b (PnLeaf v b1) (PnLeaf v b2)
  | _ => n
  end.

(** codac_ThickPaving.cpp, lines 157-166: the loop of [change], which visits every leaf once. *)
Fixpoint map_leaves (op : tb -> tb) (n : pn) : pn :=
  match n with
  | PnLeaf v b => PnLeaf (op v) b
  | PnNode v b l r => PnNode v b (map_leaves op l) (map_leaves op r)
  end.

(** codac_ThickPaving.cpp, lines 156-170: [change]. *)
Definition tp_change (op : tb -> tb) (n : pn) : pn := fst (reunite (map_leaves op n)).

(** IntervalVector::is_flat of IBEX, used in codac_ThickPaving.cpp, line 95: the box is empty or one
    component is a point. *)
Definition b_is_flat (b : box) : bool := b_is_empty b || existsb is_degenerated b.

(** codac_ThickPaving.cpp, line 95: the test [!tmp.is_empty() && !tmp.is_flat()]. *)
Definition fat_meet (n : pn) (x : box) : bool :=
  let tmp := b_inter (pn_box n) x in negb (b_is_empty tmp) && negb (b_is_flat tmp).

(** codac_ThickPaving.cpp, lines 90-105 (ctcOutside), 113-128 (ctcInside), 310-328 (contains): the loop
    over a first-in first-out list of nodes, common to the three functions; [f] is the update of
    [res] on a leaf.  [fuel] bounds the number of turns; [None]: not enough fuel. *)
Fixpoint walk {A : Type} (f : A -> tb -> box -> A) (x : box) (fuel : nat) (L : list pn) (res : A) : option A :=
  match fuel with
  | O => None
  | S fuel =>
      match L with
      | [] => Some res
      | n :: L =>
          if fat_meet n x then
            match n with
            | PnLeaf v b => walk f x fuel L (f res v b)
            | PnNode _ _ l r => walk f x fuel (L ++ [l; r]) res
            end
          else walk f x fuel L res
      end
  end.

(** codac_ThickPaving.cpp, lines 86-107 ([ctcOutside], [skip] = OUT) and 109-130 ([ctcInside], [skip] =
    IN). *)
Definition tp_ctc (skip : tb) (fuel : nat) (root : pn) (x : box) : option box :=
  if negb (b_is_subset x (pn_box root)) then Some x
  else
    match walk (fun res v b => if negb (teqb v skip) then b_hull res b else res) x fuel [root]
               (repeat Emp (length x)) with
    | Some res => Some (b_inter x res)
    | None => None
    end.

(** codac_ThickPaving.cpp, lines 308-332: [contains]. *)
Definition tp_contains (fuel : nat) (root : pn) (x : box) : option tb :=
  match walk (fun res v _ => opUnion res v) x fuel [root] TEmpty with
  | Some res => Some (if negb (b_is_subset x (pn_box root)) then opUnion TMaybe res else res)
  | None => None
  end.

(** codac_ThickPaving.cpp, lines 1162-1202: [Sivia].  The loop treats the nodes of a list one after the
    other; the treatment of a node only reads and writes that node and, for an inner node, puts its
    children on the list, so the model recurses instead.  [bigger b] is [b.max_diam() > eps].
    [None]: not enough fuel. *)
Fixpoint sivia (test : box -> tb) (op : tb -> tb -> tb) (bigger : box -> bool) (bis : box -> box * box)
    (fuel : nat) (n : pn) : option pn :=
  match fuel with
  | O => None
  | S fuel =>
      let b := pn_box n in
      let v0 := op (pn_val n) (test b) in
      let v := if teqb v0 TEmpty && bigger b then TUnk else v0 in
      if negb (is_singleton v) && bigger b then
        match pn_bisect bis n with
        | PnNode _ _ l r =>
            match sivia test op bigger bis fuel l, sivia test op bigger bis fuel r with
            | Some l', Some r' => Some (PnNode v b l' r')
            | _, _ => None
            end
        | PnLeaf _ _ => None
        end
      else Some (PnLeaf v b)
  end.

(** codac_ThickPaving.cpp, lines 42-58: the constructors that run [Sivia] on one box, of value MAYBE. *)
Definition tp_of_test (test : box -> tb) (op : tb -> tb -> tb) (bigger : box -> bool) (bis : box -> box * box)
    (fuel : nat) (b : box) : option pn :=
  sivia test op bigger bis fuel (PnLeaf TMaybe b).

(** * Files *)

(** codac_PNode_impl.hpp, lines 192-210: what is written in the file; the bytes of each value are kept
    as one item.  A bound is a finite number or an infinity (or the not-a-number of an empty
    component): only the finite ones are distinguished. *)
Inductive item := IVal (v : tb) | ISize (n : nat) | IBound (x : option R) | IChildren (b : bool).

(** codac_PNode_impl.hpp, lines 198-203: the two bounds of a component. *)
Definition bounds_of (i : itv) : list item :=
  match i with Itv l h => [IBound l; IBound h] | Emp => [IBound None; IBound None] end.

(** codac_PNode_impl.hpp, lines 192-210: [save]. *)
Fixpoint pn_save (n : pn) : list item :=
  match n with
  | PnLeaf v b => IVal v :: ISize (length b) :: flat_map bounds_of b ++ [IChildren false]
  | PnNode v b l r => IVal v :: ISize (length b) :: flat_map bounds_of b ++ IChildren true :: pn_save l ++ pn_save r
  end.

(** codac_PNode_impl.hpp, line 221: reading [2*size] doubles. *)
Fixpoint read_bounds (k : nat) (f : list item) : option (list (option R) * list item) :=
  match k with
  | O => Some ([], f)
  | S k =>
      match f with
      | IBound x :: f => match read_bounds k f with Some (bs, f') => Some (x :: bs, f') | None => None end
      | _ => None
      end
  end.

(** codac_PNode_impl.hpp, lines 212-229: [load].  The box is built by [IntervalVector(size,
    bounds[0][0])], that is, [size] copies of the interval of the first bound (empty when it is not
    finite).  [None]: the file does not hold a node, the size is 0 ([bounds[0]] does not exist), or
    not enough fuel. *)
Fixpoint pn_load (fuel : nat) (f : list item) : option (pn * list item) :=
  match fuel with
  | O => None
  | S fuel =>
      match f with
      | IVal v :: ISize size :: f =>
          match read_bounds (2 * size) f with
          | Some (x :: _, IChildren c :: f) =>
              let b := repeat (match x with Some a => pt a | None => Emp end) size in
              if c then
                match pn_load fuel f with
                | Some (l, f) => match pn_load fuel f with Some (r, f) => Some (PnNode v b l r, f) | None => None end
                | None => None
                end
              else Some (PnLeaf v b, f)
          | _ => None
          end
      | _ => None
      end
  end.
