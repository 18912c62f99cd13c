(** * Model of the life of the syntheses of a tube: the tree of TubeTreeSynthesis and the slices that it refers to

    /repo/src/core/domains/tube/codac_Tube.cpp, codac_TubeTreeSynthesis.cpp, /repo/src/core/domains/slice/codac_Slice.cpp.

    The memory is the one of HeapTube.v, with the objects TubeTreeSynthesis and TubePolynomialSynthesis.  A tree is kept as one
    object: its shape (Tree.v) and the pointers m_slice_ref of its leaves, from the first one to the last one; a slice
    refers to the tree of which m_synthesis_reference is a leaf (that leaf is the one whose m_slice_ref is the slice).
    Simplifications: the values memorised in the tree are those of Tree.v and are left out; the loop of
    request_integrals_update (codac_TubeTreeSynthesis.cpp 289-297), made only if the flag of the leaf is down, is always made here. *)

From Coq Require Import Reals Bool List Arith.
Import ListNotations.
From Verif Require Import Itv Tube TubeOps HeapTube.
From Verif Require Tree.
Open Scope R_scope.

(** SynthesisMode, codac_TubeSynthesis.h 16 *)
Inductive smode := MNone | MTree | MPoly.
(** TubeTreeSynthesis: shape and pointers of the leaves, codac_TubeTreeSynthesis.h 53-60 *)
Record tree_obj := mkTree { t_sh : Tree.tree; t_leaves : list nat }.
(** Memory with the syntheses: [refs] the member m_synthesis_reference of each slice (codac_Slice.h 673); [trees], [polys] the
    synthesis objects, absent if freed; [nid] the first number never used; for each tube, m_synthesis_mode, m_synthesis_tree
    and m_polynomial_synthesis (codac_Tube.h 1220-1224) *)
Record tworld := mkTW { tw : world; refs : nat -> option nat; trees : nat -> option tree_obj; polys : nat -> bool; nid : nat;
                        mode : nat -> smode; tptr : nat -> option nat; pptr : nat -> option nat }.

(** A member of one tube is changed; assignments of codac_Tube.cpp 1600-1639 *)
Definition fput {A} (f : nat -> A) (d : nat) (y : A) : nat -> A := fun i => if Nat.eqb i d then y else f i.
(** codac_Tube.cpp 1600-1639 *)
Definition with_w (t : tworld) (w : world) : tworld := mkTW w (refs t) (trees t) (polys t) (nid t) (mode t) (tptr t) (pptr t).
(** codac_Tube.cpp 1600-1639 *)
Definition heap_of (t : tworld) : heap := mem (tw t).

(** The destructors of the leaves, TubeTreeSynthesis::~TubeTreeSynthesis, codac_TubeTreeSynthesis.cpp 60-70: a write in each slice *)
Fixpoint clear_refs (h : heap) (f : nat -> option nat) (l : list nat) : out (nat -> option nat) :=
  match l with [] => Done f | a :: r => s <- rd h a ;; clear_refs h (fput f a None) r end.
(** Tube::delete_synthesis_tree, codac_Tube.cpp 1612-1620 *)
Definition delete_tree (t : tworld) (d : nat) : out tworld :=
  match mode t d with
  | MTree =>
      match tptr t d with
      | None => Done (mkTW (tw t) (refs t) (trees t) (polys t) (nid t) (fput (mode t) d MNone) (tptr t) (pptr t))
      | Some i =>
          match trees t i with
          | None => Undef
          | Some o =>
              f <- clear_refs (heap_of t) (refs t) (t_leaves o) ;;
              Done (mkTW (tw t) f (fput (trees t) i None) (polys t) (nid t) (fput (mode t) d MNone) (fput (tptr t) d None) (pptr t))
          end
      end
  | _ => Done t
  end.
(** Tube::delete_polynomial_synthesis, codac_Tube.cpp 1631-1639 *)
Definition delete_poly (t : tworld) (d : nat) : out tworld :=
  match mode t d with
  | MPoly =>
      match pptr t d with
      | None => Done (mkTW (tw t) (refs t) (trees t) (polys t) (nid t) (fput (mode t) d MNone) (tptr t) (pptr t))
      | Some i =>
          if polys t i
          then Done (mkTW (tw t) (refs t) (trees t) (fput (polys t) i false) (nid t) (fput (mode t) d MNone) (tptr t) (fput (pptr t) d None))
          else Undef
      end
  | _ => Done t
  end.
(** Both, codac_Tube.cpp 171-172, 210-211, 547-548, 1275-1276, 1525-1526 *)
Definition delete_synth (t : tworld) (d : nat) : out tworld := t <- delete_tree t d ;; delete_poly t d.

(** The loop over the slices, codac_Tube.cpp 1604-1606: their addresses and values *)
Fixpoint collect (fuel : nat) (h : heap) (p : option nat) : out (list (nat * slice)) :=
  match p with
  | None => Done []
  | Some a => match fuel with
              | O => Loop
              | S n => s <- rd h a ;; gi <- rdg h (h_gin s) ;; go <- rdg h (h_gout s) ;;
                       r <- collect n h (h_next s) ;; Done ((a, mkS (h_lb s) (h_ub s) (h_cod s) gi go) :: r)
              end
  end.
(** m_slice_ref->m_synthesis_reference = this, codac_TubeTreeSynthesis.cpp 29-30 *)
Fixpoint set_refs (f : nat -> option nat) (i : nat) (l : list nat) : nat -> option nat :=
  match l with [] => f | a :: r => set_refs (fput f a (Some i)) i r end.
(** Tube::create_synthesis_tree, codac_Tube.cpp 1600-1610, with the constructor codac_TubeTreeSynthesis.cpp 18-58; the
    assertions of the constructor fail when there is no slice *)
Definition create_tree (fuel : nat) (t : tworld) (d : nat) : out tworld :=
  t <- delete_tree t d ;;
  l <- collect fuel (heap_of t) (tb (tw t) d) ;;
  match l with
  | [] => Undef
  | _ => let i := nid t in
         Done (mkTW (tw t) (set_refs (refs t) i (map fst l)) (fput (trees t) i (Some (mkTree (Tree.tree_of (map snd l)) (map fst l)))) (polys t) (S i)
                    (fput (mode t) d MTree) (fput (tptr t) d (Some i)) (pptr t))
  end.
(** Tube::create_polynomial_synthesis, codac_Tube.cpp 1624-1629: m_synthesis_tree is left as it is *)
Definition create_poly (t : tworld) (d : nat) : out tworld :=
  t <- delete_poly t d ;;
  let i := nid t in
  Done (mkTW (tw t) (refs t) (trees t) (fput (polys t) i true) (S i) (fput (mode t) d MPoly) (tptr t) (fput (pptr t) d (Some i))).

(** Tube::slice(double), codac_Tube.cpp 366-387, for t in the domain; with a tree codac_TubeTreeSynthesis.cpp 251-266 *)
Definition slice_at (fuel : nat) (t : tworld) (d : nat) (x : R) : out nat :=
  match mode t d with
  | MTree =>
      match tptr t d with
      | Some i => match trees t i with
                  | Some o => match nth_error (t_leaves o) (Tree.tslice_t (t_sh o) x) with Some a => Done a | None => Undef end
                  | None => Undef
                  end
      | None => Undef
      end
  | _ => find fuel (heap_of t) x (tb (tw t) d) None
  end.
(** Tube::slice(int), codac_Tube.cpp 338-359; with a tree codac_TubeTreeSynthesis.cpp 226-243 *)
Definition slice_nth (t : tworld) (d k : nat) : out nat :=
  match mode t d with
  | MTree =>
      match tptr t d with
      | Some i => match trees t i with
                  | Some o => match nth_error (t_leaves o) (Tree.tslice (t_sh o) k) with Some a => Done a | None => Undef end
                  | None => Undef
                  end
      | None => Undef
      end
  | _ => nth_slice (heap_of t) (tb (tw t) d) k
  end.
(** The loop of Tube::nb_slices, codac_Tube.cpp 326-329 *)
Fixpoint hcount (fuel : nat) (h : heap) (p : option nat) : out nat :=
  match p with
  | None => Done 0%nat
  | Some a => match fuel with O => Loop | S n => s <- rd h a ;; k <- hcount n h (h_next s) ;; Done (S k) end
  end.
(** Tube::nb_slices, codac_Tube.cpp 319-331; with a tree codac_TubeTreeSynthesis.cpp 77-80 *)
Definition nb_slices (fuel : nat) (t : tworld) (d : nat) : out nat :=
  match mode t d with
  | MTree =>
      match tptr t d with
      | Some i => match trees t i with Some o => Done (Tree.nb (t_sh o)) | None => Undef end
      | None => Undef
      end
  | _ => hcount fuel (heap_of t) (tb (tw t) d)
  end.

(** The tree of m_synthesis_reference is alive, codac_Slice.cpp 495-499, 513-517 *)
Definition alive (t : tworld) (p : option nat) : out unit :=
  match p with None => Done tt | Some i => match trees t i with Some _ => Done tt | None => Undef end end.
(** The loop of request_integrals_update, codac_TubeTreeSynthesis.cpp 292-296: each following slice has a reference *)
Fixpoint notify_rest (fuel : nat) (t : tworld) (p : option nat) : out unit :=
  match p with
  | None => Done tt
  | Some a => match fuel with
              | O => Loop
              | S n => s <- rd (heap_of t) a ;;
                       match refs t a with None => Undef | r => u <- alive t r ;; notify_rest n t (h_next s) end
              end
  end.
(** Notifications of a setter of the slice [a]: request_values_update, and request_integrals_update if [ints];
    codac_Slice.cpp 455-459, 477-481, 495-499, 513-517 *)
Definition notify (fuel : nat) (ints : bool) (t : tworld) (a : nat) : out unit :=
  match refs t a with
  | None => Done tt
  | r => u <- alive t r ;;
         if ints then s <- rd (heap_of t) a ;; notify_rest fuel t (h_next s) else Done tt
  end.

(** An operation on one slice, then the notifications; codac_Slice.cpp 443-518 *)
Definition set_and_notify (fuel : nat) (t : tworld) (d k : nat) (ints : bool) (f : heap -> nat -> out heap) : out tworld :=
  a <- slice_nth t d k ;;
  h <- f (heap_of t) a ;;
  let t := with_w t (mkW h (tb (tw t))) in
  u <- notify fuel ints t a ;; Done t.

(** Tube::truncate_tdomain, the first loop, codac_Tube.cpp 1254-1259: the slice that becomes the first one *)
Fixpoint hdrop_first (fuel : nat) (h : heap) (a b : R) (p : option nat) : out (nat * heap) :=
  match p with
  | None => Undef
  | Some c => match fuel with
              | O => Loop
              | S n => s <- rd h c ;;
                       if is_outside_of a b a (mkS (h_lb s) (h_ub s) Emp Emp Emp) then h' <- del_slice h c ;; hdrop_first n h' a b (h_next s)
                       else Done (c, h)
              end
  end.
(** Tube::last_slice, codac_Tube.cpp 404-416 *)
Fixpoint hlast (fuel : nat) (h : heap) (p : option nat) : out nat :=
  match p with
  | None => Undef
  | Some c => match fuel with
              | O => Loop
              | S n => s <- rd h c ;; match h_next s with None => Done c | q => hlast n h q end
              end
  end.
(** Tube::truncate_tdomain, the second loop, codac_Tube.cpp 1265-1270 *)
Fixpoint hdrop_last (fuel : nat) (h : heap) (a b : R) (p : option nat) : out (nat * heap) :=
  match p with
  | None => Undef
  | Some c => match fuel with
              | O => Loop
              | S n => s <- rd h c ;;
                       if is_outside_of a b b (mkS (h_lb s) (h_ub s) Emp Emp Emp) then h' <- del_slice h c ;; hdrop_last n h' a b (h_prev s)
                       else Done (c, h)
              end
  end.
(** set_tdomain(t & tdomain()), codac_Tube.cpp 1261, 1272; the assertion of codac_Slice.cpp 545 fails on the empty set *)
Definition hclip (h : heap) (a b : R) (c : nat) : out heap :=
  s <- rd h c ;;
  match inter (bnd a b) (bnd (h_lb s) (h_ub s)) with
  | Itv (Some l) (Some u) => wr h c (w_dom l u)
  | _ => Undef
  end.
(** Tube::truncate_tdomain, codac_Tube.cpp 1248-1278.  With a tree, last_slice() is the last leaf (406-407); the tree is
    deleted at the end. *)
Definition truncate (fuel : nat) (t : tworld) (d : nat) (a b : R) : out tworld :=
  ch <- hdrop_first fuel (heap_of t) a b (tb (tw t) d) ;;
  let t := with_w t (mkW (snd ch) (fput (tb (tw t)) d (Some (fst ch)))) in
  h <- hclip (heap_of t) a b (fst ch) ;;
  let t := with_w t (mkW h (tb (tw t))) in
  e <- (match mode t d with MTree => n <- nb_slices fuel t d ;; slice_nth t d (n - 1) | _ => hlast fuel (heap_of t) (tb (tw t) d) end) ;;
  eh <- hdrop_last fuel (heap_of t) a b (Some e) ;;
  h <- hclip (snd eh) a b (fst eh) ;;
  delete_synth (with_w t (mkW h (tb (tw t)))) d.

(** Tube::merge_similar_slices, codac_Tube.cpp 606-619: [close c1 c2] is distance(c1,c2) < threshold *)
Fixpoint hmerge_similar (fuel : nat) (t : tworld) (close : itv -> itv -> bool) (p : option nat) : out tworld :=
  match p with
  | None => Done t
  | Some b =>
      match fuel with
      | O => Loop
      | S n =>
          s2 <- rd (heap_of t) b ;;
          t <- match h_prev s2 with
               | None => Done t
               | Some a =>
                   s1 <- rd (heap_of t) a ;;
                   if close (h_cod s1) (h_cod s2)
                   then u <- notify fuel true t a ;; h <- hmerge (heap_of t) a (Some b) ;; Done (with_w t (mkW h (tb (tw t))))
                   else Done t
               end ;;
          hmerge_similar n t close (h_next s2)
      end
  end.

(** Programs: the calls of HeapTube.v, enable_synthesis (codac_Tube.cpp 1506-1530), truncate_tdomain (1248-1278),
    merge_similar_slices (606-619) *)
Inductive top :=
| TH (o : hop)
| TTree (d : nat)                                       (* d.enable_synthesis(SynthesisMode::BINARY_TREE) *)
| TPoly (d : nat)                                       (* d.enable_synthesis(SynthesisMode::POLYNOMIAL) *)
| TNone (d : nat)                                       (* d.enable_synthesis(SynthesisMode::NONE) *)
| TTruncate (d : nat) (a b : R)                         (* d.truncate_tdomain([a,b]) *)
| TMerge (d : nat) (close : itv -> itv -> bool).        (* d.merge_similar_slices(threshold) *)

(** One call, codac_Tube.cpp 33-42, 122-125, 169-181, 198-245, 525-564, 594-619, 1248-1278, 1506-1530 *)
Definition texec (fuel : nat) (t : tworld) (o : top) : out tworld :=
  match o with
  | TH (HNew d l u y) =>
      w <- hexec fuel (tw t) (HNew d l u y) ;;
      Done (mkTW w (refs t) (trees t) (polys t) (nid t) (fput (mode t) d MNone) (fput (tptr t) d None) (fput (pptr t) d None))
  | TH (HAssign d s) =>                                 (* slices deleted (203-208), then the syntheses (210-211), then the copy *)
      h <- destroy fuel (heap_of t) (tb (tw t) d) ;;
      t <- delete_synth (with_w t (mkW h (tb (tw t)))) d ;;
      r <- copy_loop fuel (heap_of t) (tb (tw t) s) None None ;;
      Done (with_w t (mkW (snd r) (match fst r with Some n => fput (tb (tw t)) d (Some n) | None => tb (tw t) end)))
  | TH (HKill d) =>                                     (* syntheses deleted (171-172), then the slices *)
      t <- delete_synth t d ;;
      w <- kill fuel (tw t) d ;;
      Done (mkTW w (refs t) (trees t) (polys t) (nid t) (fput (mode t) d MNone) (fput (tptr t) d None) (fput (pptr t) d None))
  | TH (HSample d x) =>
      a <- slice_at fuel t d x ;;
      s <- rd (heap_of t) a ;;
      if Rleb (h_lb s) x && Rleb x (h_ub s) then
        if Reqb (h_lb s) x || Reqb (h_ub s) x then Done t
        else t <- delete_synth t d ;; h <- hsample_at (heap_of t) x a ;; Done (with_w t (mkW h (tb (tw t))))
      else Undef
  | TH (HRemove d x) =>
      b <- slice_at fuel t d x ;;
      s2 <- rd (heap_of t) b ;;
      if Reqb (h_lb s2) x then
        match h_prev s2 with
        | Some a => u <- notify fuel true t a ;; h <- hmerge (heap_of t) a (Some b) ;; Done (with_w t (mkW h (tb (tw t))))
        | None => Undef
        end
      else Undef
  | TH (HSet d k y) => set_and_notify fuel t d k true (fun h a => hslice_set h a y)
  | TH (HEnvelope d k y c) => set_and_notify fuel t d k true (fun h a => hset_envelope h a y c)
  | TH (HIn d k g c) => set_and_notify fuel t d k false (fun h a => hset_input_gate h a g c)
  | TH (HOut d k g c) => set_and_notify fuel t d k false (fun h a => hset_output_gate h a g c)
  | TTree d => create_tree fuel t d
  | TPoly d => create_poly t d
  | TNone d => delete_synth t d
  | TTruncate d a b => truncate fuel t d a b
  | TMerge d close => hmerge_similar fuel t close (tb (tw t) d)
  end.
(** A sequence of calls, codac_Tube.cpp 33-619, 1248-1278, 1506-1530 *)
Fixpoint trun (fuel : nat) (t : tworld) (ops : list top) : out tworld :=
  match ops with [] => Done t | o :: r => t <- texec fuel t o ;; trun fuel t r end.
