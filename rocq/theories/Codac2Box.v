(** * Boxes and pavings of codac2

    Models the set operations of /repo/src/core/2/domains/interval/codac2_IntervalMatrix.h and
    codac2_IntervalVector.h, and /repo/src/core/2/domains/paving/codac2_Paving.h.  A matrix or a vector of
    intervals is the list of its components (the loops of the code run over [data()], in this order). *)

From Coq Require Import Reals Lra Bool List Arith.
Import ListNotations.
From Verif Require Import Itv Static.
Open Scope R_scope.

(** codac2_IntervalMatrix.h 139-145: some component is empty (all the components are read, contrary to IBEX) *)
Definition m_is_empty (x : box) : bool := existsb is_empty x.

(** [codac::Interval] is that of IBEX; [is_strict_subset] and [is_disjoint] on intervals, as documented there
    (used by codac2_IntervalMatrix.h 192 and 255) *)
Definition i_is_strict_subset (i j : itv) : bool := is_subset i j && negb (itv_eqb i j).
(** codac2_IntervalMatrix.h 255 *)
Definition i_is_disjoint (i j : itv) : bool := is_empty (inter i j).

(** a test on all the pairs of components, as in the loops of codac2_IntervalMatrix.h 179-181, 214-216, 234-236, 469-471 *)
Fixpoint all2 {A} (f : itv -> A -> bool) (x : box) (y : list A) : bool :=
  match x, y with i :: x, j :: y => f i j && all2 f x y | _, _ => true end.
(** codac2_IntervalMatrix.h 254-256 *)
Fixpoint some2 (f : itv -> itv -> bool) (x y : box) : bool :=
  match x, y with i :: x, j :: y => f i j || some2 f x y | _, _ => false end.

(** codac2_IntervalMatrix.h 175-183 *)
Definition m_is_subset (x y : box) : bool :=
  if m_is_empty x then true else if m_is_empty y then false else all2 is_subset x y.
(** the loop of codac2_IntervalMatrix.h 190-197 *)
Fixpoint strict_loop (x y : box) (one : bool) : bool :=
  match x, y with
  | i :: x, j :: y =>
      let one := if i_is_strict_subset i j then true else one in
      if negb (is_subset i j) then false else strict_loop x y one
  | _, _ => one
  end.
(** codac2_IntervalMatrix.h 185-198 *)
Definition m_is_strict_subset (x y : box) : bool :=
  if m_is_empty y then false else if m_is_empty x then true else strict_loop x y false.
(** codac2_IntervalMatrix.h 210-218 *)
Definition m_contains (x : box) (p : list R) : bool :=
  if m_is_empty x then false else all2 contains x p.
(** codac2_IntervalMatrix.h 230-238 *)
Definition m_intersects (x y : box) : bool :=
  if m_is_empty x || m_is_empty y then false else all2 intersects x y.
(** codac2_IntervalMatrix.h 250-258 *)
Definition m_is_disjoint (x y : box) : bool :=
  if m_is_empty x || m_is_empty y then true else some2 i_is_disjoint x y.
(** codac2_IntervalMatrix.h 463-473, for vectors *)
Definition m_eqb (x y : box) : bool :=
  if negb (Nat.eqb (length y) (length x)) then false
  else if m_is_empty x || m_is_empty y then m_is_empty x && m_is_empty y
  else all2 itv_eqb x y.
(** codac2_IntervalMatrix.h 436-445 *)
Definition m_set_empty (x : box) : box := map (fun _ => Emp) x.
(** codac2_IntervalMatrix.h 480-491, 518-522 *)
Definition m_inter (x y : box) : box :=
  if m_is_empty x then x else if m_is_empty y then m_set_empty x else map2 inter x y.
(** codac2_IntervalMatrix.h 493-504, 524-528 *)
Definition m_hull (x y : box) : box :=
  if m_is_empty y then x else if m_is_empty x then y else map2 hull x y.

(** ** Widths *)
(** [diam()] of a bounded interval (exact); codac2_IntervalMatrix.h 301-317 *)
Definition i_diam (i : itv) : R := match i with Itv (Some a) (Some b) => b - a | _ => 0 end.

(** The first loop of codac2_IntervalMatrix.h 301-317: [d] is [None] for an infinite value (only when [min]), [sel] is
    [None] for -1.  It returns the value of [i] at the end, [unbounded] and [selected_index]. *)
Fixpoint diam_loop1 (mn : bool) (x : box) (i : nat) (d : option R) (sel : option nat) (unb : bool) : nat * bool * option nat :=
  match x with
  | [] => (i, unb, sel)
  | xi :: x =>
      if is_unbounded xi then
        if mn then diam_loop1 mn x (S i) d sel true else (i, true, sel)
      else
        let w := i_diam xi in
        if (match d with None => true | Some d => if mn then Rltb w d else Rltb d w end)
        then diam_loop1 mn x (S i) (Some w) (Some i) unb
        else diam_loop1 mn x (S i) d sel unb
  end.
(** The second loop, codac2_IntervalMatrix.h 332-358, on the components from the index [i]; [p] is [pt], [None] for its
    infinite initial value. *)
Fixpoint diam_loop2 (mn : bool) (x : box) (i : nat) (p : option R) (sel : nat) : nat :=
  match x with
  | [] => sel
  | xi :: x =>
      let try k := if (match p with None => true | Some p => if mn then Rltb p k else Rltb k p end)
                   then diam_loop2 mn x (S i) (Some k) i else diam_loop2 mn x (S i) p sel in
      match xi with
      | Itv None None => if mn then diam_loop2 mn x (S i) p sel else i
      | Itv None (Some b) => try (- b)
      | Itv (Some a) None => try a
      | _ => diam_loop2 mn x (S i) p sel
      end
  end.
(** codac2_IntervalMatrix.h 288-362; [None]: the assertion on the emptiness fails, or there is no component (the code
    then returns [(size_t)-1]) *)
Definition extr_diam_index (mn : bool) (x : box) : option nat :=
  if m_is_empty x then None
  else let '(i, unb, sel) := diam_loop1 mn x 0 (if mn then None else Some (-1)) None false in
       let i := if mn && match sel with None => true | _ => false end then 0%nat else i in
       if unb && (negb mn || match sel with None => true | _ => false end)
       then Some (diam_loop2 mn (skipn i x) i None i) else sel.

(** assignment of a component, e.g. codac2_IntervalMatrix.h 372-373 *)
Fixpoint bset (k : nat) (v : itv) (x : box) : box :=
  match x, k with
  | [], _ => []
  | _ :: x, O => v :: x
  | i :: x, S k => i :: bset k v x
  end.
(** codac2_IntervalMatrix.h 364-375.  [bis] is [Interval::bisect(ratio)] of IBEX, [None] when the interval is not
    bisectable; the assertion on [ratio] is not modelled. *)
Definition m_bisect (bis : itv -> option (itv * itv)) (x : box) : option (box * box) :=
  match extr_diam_index false x with
  | None => None
  | Some i => match bis (nth i x Emp) with
              | None => None
              | Some (a, b) => Some (bset i a x, bset i b x)
              end
  end.

(** codac2_IntervalMatrix.h 377-389: [None] is +oo; exact logarithm and exponential *)
Fixpoint vol_loop (x : box) (v : R) : option R :=
  match x with
  | [] => Some (exp v)
  | xi :: x => if is_unbounded xi then None else if is_degenerated xi then Some 0 else vol_loop x (v + ln (i_diam xi))
  end.
(** codac2_IntervalMatrix.h 377-389 *)
Definition m_volume (x : box) : option R := if m_is_empty x then Some 0 else vol_loop x 0.

(** ** Difference *)
(** codac2_IntervalVector.h 184-187: in one dimension [z] is flat and [x] not *)
Fixpoint flat_dim (z x : box) : bool :=
  match z, x with i :: z, j :: x => (is_degenerated i && negb (is_degenerated j)) || flat_dim z x | _, _ => false end.
(** the loop of codac2_IntervalVector.h 192-220: [pre] holds the components of [x] before [var], already updated.
    [idiff] is [Interval::diff] of IBEX, with its argument [compactness]. *)
Fixpoint diff_loop (idiff : itv -> itv -> itv * itv) (pre x y z : box) : list box :=
  match x, y, z with
  | xi :: x, yi :: y, zi :: z =>
      let '(c1, c2) := idiff xi yi in
      if negb (is_empty c1) then
        (pre ++ c1 :: x) :: (if negb (is_empty c2) then [pre ++ c2 :: x] else []) ++ diff_loop idiff (pre ++ [zi]) x y z
      else diff_loop idiff (pre ++ [xi]) x y z
  | _, _, _ => []
  end.
(** codac2_IntervalVector.h 161-223 *)
Definition m_diff (idiff : bool -> itv -> itv -> itv * itv) (compactness : bool) (x y : box) : list box :=
  if m_eqb y x then [map (fun _ => Emp) x]
  else let z := m_inter x y in
       if m_is_empty z then [x]
       else if compactness && flat_dim z x then [x]
       else diff_loop (idiff compactness) [] x y z.
(** codac2_IntervalVector.h 156-159: [compactness] has its default value *)
Definition m_complementary (idiff : bool -> itv -> itv -> itv * itv) (x : box) : list box :=
  m_diff idiff true (map (fun _ => ALL) x) x.

(** ** Pavings *)
(** codac2_Paving.h 135-136: a node has a box and at most two children *)
Inductive pnode : Type :=
| PLeaf (x : box)
| PLeft (x : box) (l : pnode)
| PRight (x : box) (r : pnode)
| PBoth (x : box) (l r : pnode).

(** codac2_Paving.h 36-39 *)
Definition pbox (t : pnode) : box := match t with PLeaf x | PLeft x _ | PRight x _ | PBoth x _ _ => x end.

(** codac2_Paving.h 51-58 *)
Fixpoint p_is_empty (t : pnode) : bool :=
  match t with
  | PLeaf x => m_is_empty x
  | PBoth _ l r => p_is_empty l && p_is_empty r
  | PLeft _ l => p_is_empty l && false
  | PRight _ r => false
  end.

(** sum of two volumes, [None] being +oo (codac2_Paving.h 70-71) *)
Definition vadd (a b : option R) : option R :=
  match a, b with Some a, Some b => Some (a + b) | _, _ => None end.
(** codac2_Paving.h 65-73 (exact sum) *)
Fixpoint p_volume (t : pnode) : option R :=
  match t with
  | PLeaf x => m_volume x
  | PLeft _ l => vadd (Some 0) (p_volume l)
  | PRight _ r => vadd (Some 0) (p_volume r)
  | PBoth _ l r => vadd (vadd (Some 0) (p_volume l)) (p_volume r)
  end.

(** codac2_Paving.h 75-83, applied to the node reached from the root by the path [w] ([true] is left): [None] when there
    is no such node or when an assertion fails.  The assertion [is_bisectable] (line 79) is that some component is
    bisectable; the one of [m_bisect] is stronger. *)
Fixpoint p_bisect (bis : itv -> option (itv * itv)) (w : list bool) (t : pnode) : option pnode :=
  match w, t with
  | [], PLeaf x => match m_bisect bis x with None => None | Some (a, b) => Some (PBoth x (PLeaf a) (PLeaf b)) end
  | true :: w, PLeft x l => option_map (PLeft x) (p_bisect bis w l)
  | true :: w, PBoth x l r => option_map (fun l => PBoth x l r) (p_bisect bis w l)
  | false :: w, PRight x r => option_map (PRight x) (p_bisect bis w r)
  | false :: w, PBoth x l r => option_map (fun r => PBoth x l r) (p_bisect bis w r)
  | _, _ => None
  end.

(** codac2_Paving.h 85-93, for a fixed dimension [n] (in the dynamic case [empty_set()] of line 89 has [(size_t)-1] rows) *)
Fixpoint p_hull_box (n : nat) (t : pnode) : box :=
  match t with
  | PLeaf x => x
  | PLeft _ l => m_hull (repeat Emp n) (p_hull_box n l)
  | PRight _ r => m_hull (repeat Emp n) (p_hull_box n r)
  | PBoth _ l r => m_hull (m_hull (repeat Emp n) (p_hull_box n l)) (p_hull_box n r)
  end.

(** [intersects] (codac2_IntervalMatrix.h 230-238) when the argument may be shorter: [None] is the read of a component
    that does not exist *)
Fixpoint inter_loop (x y : box) : option bool :=
  match x, y with
  | [], _ => Some true
  | _ :: _, [] => None
  | i :: x, j :: y => if intersects i j then inter_loop x y else Some false
  end.
(** codac2_IntervalMatrix.h 230-238 *)
Definition m_intersects_dyn (x y : box) : option bool :=
  if m_is_empty x || m_is_empty y then Some false else inter_loop x y.

(** concatenation of two results, undefined as soon as one is (codac2_Paving.h 117-118) *)
Definition oapp (a b : option (list box)) : option (list box) :=
  match a, b with Some a, Some b => Some (a ++ b) | _, _ => None end.
(** codac2_Paving.h 111-120.  [dflt] is [IntervalVector_<N>()], the value that the recursive calls of lines 117-118 give
    to [intersect]: the whole space of dimension [N] when it is fixed at compile time, a vector without component when
    it is dynamic.  The list of references is the list of the boxes. *)
Fixpoint boxes_push (dflt : box) (t : pnode) (f : box) : option (list box) :=
  match t with
  | PLeaf x => if negb (m_is_empty x)
               then match m_intersects_dyn x f with None => None | Some true => Some [x] | Some false => Some [] end
               else Some []
  | PLeft _ l => boxes_push dflt l dflt
  | PRight _ r => boxes_push dflt r dflt
  | PBoth _ l r => oapp (boxes_push dflt l dflt) (boxes_push dflt r dflt)
  end.
(** the value of [IntervalVector_<N>()]: codac2_IntervalVector.h 42-44, codac2_IntervalMatrix.h 35-39 *)
Definition dflt_static (n : nat) : box := repeat ALL n.
(** codac2_IntervalMatrix.h 35-39 *)
Definition dflt_dynamic : box := [].
(** codac2_Paving.h 95-100 *)
Definition boxes_list (dflt : box) (t : pnode) (f : box) : option (list box) := boxes_push dflt t f.
(** codac2_Paving.h 102-107, 122-131 *)
Fixpoint leaves_push (t : pnode) : list box :=
  match t with
  | PLeaf x => if negb (m_is_empty x) then [x] else []
  | PLeft _ l => leaves_push l
  | PRight _ r => leaves_push r
  | PBoth _ l r => leaves_push l ++ leaves_push r
  end.
(** codac2_Paving.h 102-107 *)
Definition leaves_list (t : pnode) : list box := leaves_push t.
