(** * Model of the memory of tubes: the objects Slice and their gates, linked by pointers

    /repo/src/core/domains/slice/codac_Slice.cpp, /repo/src/core/domains/tube/codac_Tube.cpp,
    /repo/src/core/domains/tube/codac_TubeVector.cpp.

    A pointer is an [option nat], [None] being the null pointer.  Slices and gates (objects [Interval] created by new) are kept
    in two maps; a freed object is absent from its map.  [Undef]: a null pointer or a pointer to a freed object is dereferenced,
    an object is deleted twice, or an assertion fails.  [Loop]: the bound given for a loop is reached.
    Simplifications: addresses are never used again after a delete; no synthesis tree (m_synthesis_reference is null); the
    cached member m_tdomain is left out. *)

From Coq Require Import Reals Bool List Arith.
Import ListNotations.
From Verif Require Import Itv Tube.
Open Scope R_scope.

(** Outcome of an operation on the memory: used for every function below, codac_Slice.cpp 24-607 *)
Inductive out (A : Type) : Type := Done (a : A) | Undef | Loop.
Arguments Done {A}. Arguments Undef {A}. Arguments Loop {A}.
(** Sequence of two operations; statements of codac_Slice.cpp 24-607 *)
Definition obind {A B} (o : out A) (f : A -> out B) : out B :=
  match o with Done a => f a | Undef => Undef | Loop => Loop end.
Notation "x <- o ;; r" := (obind o (fun x => r)) (at level 61, o at next level, right associativity).

(** Members of Slice: m_tdomain, m_codomain, m_prev_slice, m_next_slice, m_input_gate, m_output_gate, codac_Slice.h 669-672 *)
Record hslice := mkH { h_lb : R; h_ub : R; h_cod : itv; h_prev : option nat; h_next : option nat; h_gin : option nat; h_gout : option nat }.
(** The memory: slices, gates, first address never used; codac_Slice.h 669-672 *)
Record heap := mkHeap { hsl : nat -> option hslice; hgt : nat -> option itv; hnxt : nat }.

(** Writes to one entry of a map; assignments of codac_Slice.cpp 54-68 *)
Definition put {A} (f : nat -> option A) (a : nat) (v : option A) : nat -> option A := fun b => if Nat.eqb b a then v else f b.

(** Reading through a pointer to a slice, e.g. codac_Slice.cpp 84, 94 *)
Definition rd (h : heap) (a : nat) : out hslice := match hsl h a with Some s => Done s | None => Undef end.
(** Writing members of the slice at [a], e.g. codac_Slice.cpp 41-42 *)
Definition wr (h : heap) (a : nat) (f : hslice -> hslice) : out heap :=
  match hsl h a with Some s => Done (mkHeap (put (hsl h) a (Some (f s))) (hgt h) (hnxt h)) | None => Undef end.
(** Reading a gate, codac_Slice.cpp 97-105 *)
Definition rdg (h : heap) (p : option nat) : out itv :=
  match p with Some g => match hgt h g with Some v => Done v | None => Undef end | None => Undef end.
(** Writing a gate, codac_Slice.cpp 447-453 *)
Definition wrg (h : heap) (p : option nat) (v : itv) : out heap :=
  match p with
  | Some g => match hgt h g with Some _ => Done (mkHeap (hsl h) (put (hgt h) g (Some v)) (hnxt h)) | None => Undef end
  | None => Undef
  end.
(** delete of a gate, codac_Slice.cpp 45-46; nothing for the null pointer *)
Definition freeg (h : heap) (p : option nat) : out heap :=
  match p with
  | Some g => match hgt h g with Some _ => Done (mkHeap (hsl h) (put (hgt h) g None) (hnxt h)) | None => Undef end
  | None => Done h
  end.
(** Setters of the members, codac_Slice.h 669-672 *)
Definition w_prev (p : option nat) (s : hslice) := mkH (h_lb s) (h_ub s) (h_cod s) p (h_next s) (h_gin s) (h_gout s).
(** codac_Slice.h 669-672 *)
Definition w_next (p : option nat) (s : hslice) := mkH (h_lb s) (h_ub s) (h_cod s) (h_prev s) p (h_gin s) (h_gout s).
(** codac_Slice.h 669-672 *)
Definition w_gin (p : option nat) (s : hslice) := mkH (h_lb s) (h_ub s) (h_cod s) (h_prev s) (h_next s) p (h_gout s).
(** codac_Slice.h 669-672 *)
Definition w_gout (p : option nat) (s : hslice) := mkH (h_lb s) (h_ub s) (h_cod s) (h_prev s) (h_next s) (h_gin s) p.
(** codac_Slice.h 669-672 *)
Definition w_cod (y : itv) (s : hslice) := mkH (h_lb s) (h_ub s) y (h_prev s) (h_next s) (h_gin s) (h_gout s).
(** codac_Slice.h 669-672 *)
Definition w_dom (l u : R) (s : hslice) := mkH l u (h_cod s) (h_prev s) (h_next s) (h_gin s) (h_gout s).

(** delete of a slice: Slice::~Slice, codac_Slice.cpp 38-47, then the object is freed *)
Definition del_slice (h : heap) (a : nat) : out heap :=
  s <- rd h a ;;
  h <- match h_prev s with Some b => wr h b (w_next None) | None => Done h end ;;
  h <- match h_next s with Some b => wr h b (w_prev None) | None => Done h end ;;
  h <- match h_prev s with None => freeg h (h_gin s) | Some _ => Done h end ;;
  h <- match h_next s with None => freeg h (h_gout s) | Some _ => Done h end ;;
  Done (mkHeap (put (hsl h) a None) (hgt h) (hnxt h)).

(** Slice::Slice(tdomain, codomain), codac_Slice.cpp 24-30: two new gates; no neighbours *)
Definition new_slice (h : heap) (l u : R) (y gi go : itv) : nat * heap :=
  let n := hnxt h in
  (n, mkHeap (put (hsl h) n (Some (mkH l u y None None (Some n) (Some (S n))))) (put (put (hgt h) n (Some gi)) (S n) (Some go)) (S (S n))).
(** Slice::Slice(const Slice&), codac_Slice.cpp 32-36 with Slice::operator= 54-68: values of the gates are copied *)
Definition copy_slice (h : heap) (a : nat) : out (nat * heap) :=
  s <- rd h a ;; gi <- rdg h (h_gin s) ;; go <- rdg h (h_gout s) ;;
  Done (new_slice h (h_lb s) (h_ub s) (h_cod s) gi go).

(** Slice::chain_slices, codac_Slice.cpp 561-578 *)
Definition chain_slices (h : heap) (p q : option nat) : out heap :=
  h <- match p with Some a => wr h a (w_next q) | None => Done h end ;;
  h <- match q with Some b => wr h b (w_prev p) | None => Done h end ;;
  match p, q with
  | Some a, Some b =>
      s1 <- rd h a ;; s2 <- rd h b ;;
      h <- match h_gin s2 with
           | Some _ => v1 <- rdg h (h_gout s1) ;; v2 <- rdg h (h_gin s2) ;; wrg h (h_gout s1) (inter v1 v2)
           | None => Done h
           end ;;
      wr h b (w_gin (h_gout s1))
  | _, _ => Done h
  end.

(** The loop of Tube::~Tube, codac_Tube.cpp 174-180, and of Tube::operator=, codac_Tube.cpp 202-208 *)
Fixpoint destroy (fuel : nat) (h : heap) (p : option nat) : out heap :=
  match p with
  | None => Done h
  | Some a => match fuel with
              | O => Loop
              | S n => s <- rd h a ;; h <- del_slice h a ;; destroy n h (h_next s)
              end
  end.

(** The loop of Tube::operator=, codac_Tube.cpp 217-239: [p] the slice to be copied, [q] the previous copy; returns the value
    given to m_first_slice, if any *)
Fixpoint copy_loop (fuel : nat) (h : heap) (p q first : option nat) : out (option nat * heap) :=
  match p with
  | None => Done (first, h)
  | Some a =>
      match fuel with
      | O => Loop
      | S k =>
          nh <- copy_slice h a ;;
          let n := fst nh in
          h <- match q with
               | None => Done (snd nh)
               | Some b =>
                   h <- wr (snd nh) b (w_next (Some n)) ;;
                   s <- rd h n ;;
                   h <- freeg h (h_gin s) ;;
                   h <- wr h n (w_gin None) ;;
                   chain_slices h (Some b) (Some n)
               end ;;
          s <- rd h a ;;
          copy_loop k h (h_next s) (Some n) (match q with None => Some n | Some _ => first end)
      end
  end.

(** Objects Tube: the member m_first_slice of each one, codac_Tube.h 1220 *)
Record world := mkW { mem : heap; tb : nat -> option nat }.
(** Tube::operator=(x), codac_Tube.cpp 198-245, between the objects [d] and [s].  m_first_slice is written in the loop only. *)
Definition assign (fuel : nat) (w : world) (d s : nat) : out world :=
  h <- destroy fuel (mem w) (tb w d) ;;
  r <- copy_loop fuel h (tb w s) None None ;;
  Done (mkW (snd r) (match fst r with Some n => fun i => if Nat.eqb i d then Some n else tb w i | None => tb w end)).
(** Tube::~Tube, codac_Tube.cpp 169-181; the object [d] exists no more: its number can be given to a new object, whose
    m_first_slice is null *)
Definition kill (fuel : nat) (w : world) (d : nat) : out world :=
  h <- destroy fuel (mem w) (tb w d) ;; Done (mkW h (fun i => if Nat.eqb i d then None else tb w i)).

(** Tube::slice(double t) for t in the domain, codac_Tube.cpp 376-385; [last] is last_s *)
Fixpoint find (fuel : nat) (h : heap) (t : R) (p last : option nat) : out nat :=
  match p with
  | None => match last with Some a => Done a | None => Undef end
  | Some a => match fuel with
              | O => Loop
              | S n => s <- rd h a ;; if Rltb t (h_ub s) then Done a else find n h t (h_next s) (Some a)
              end
  end.

(** codomain of a neighbour, codac_Slice.cpp 448-449, 452-453 *)
Definition cod_of (h : heap) (p : option nat) : out (option itv) :=
  match p with None => Done None | Some a => s <- rd h a ;; Done (Some (h_cod s)) end.
(** Slice::set_input_gate, codac_Slice.cpp 484-500 *)
Definition hset_input_gate (h : heap) (a : nat) (g : itv) (consistency : bool) : out heap :=
  s <- rd h a ;;
  if consistency then c <- cod_of h (h_prev s) ;; wrg h (h_gin s) (inter_opt (inter g (h_cod s)) c)
  else wrg h (h_gin s) g.
(** Slice::set_output_gate, codac_Slice.cpp 502-518 *)
Definition hset_output_gate (h : heap) (a : nat) (g : itv) (consistency : bool) : out heap :=
  s <- rd h a ;;
  if consistency then c <- cod_of h (h_next s) ;; wrg h (h_gout s) (inter_opt (inter g (h_cod s)) c)
  else wrg h (h_gout s) g.
(** Slice::set_envelope, codac_Slice.cpp 467-482 *)
Definition hset_envelope (h : heap) (a : nat) (y : itv) (consistency : bool) : out heap :=
  h <- wr h a (w_cod y) ;;
  if consistency then
    s <- rd h a ;;
    v <- rdg h (h_gin s) ;; h <- wrg h (h_gin s) (inter v y) ;;
    v <- rdg h (h_gout s) ;; wrg h (h_gout s) (inter v y)
  else Done h.
(** Slice::set, codac_Slice.cpp 443-460 *)
Definition hslice_set (h : heap) (a : nat) (y : itv) : out heap :=
  h <- wr h a (w_cod y) ;;
  s <- rd h a ;;
  c <- cod_of h (h_prev s) ;; h <- wrg h (h_gin s) (inter_opt y c) ;;
  c <- cod_of h (h_next s) ;; wrg h (h_gout s) (inter_opt y c).

(** Tube::sample(t, slice), codac_Tube.cpp 533-564 *)
Definition hsample_at (h : heap) (t : R) (a : nat) : out heap :=
  s <- rd h a ;;
  if Rleb (h_lb s) t && Rleb t (h_ub s) then
    if Reqb (h_lb s) t || Reqb (h_ub s) t then Done h
    else
      nh <- copy_slice h a ;;
      let n := fst nh in
      h <- wr (snd nh) n (w_dom t (h_ub s)) ;;
      h <- wr h a (w_dom (h_lb s) t) ;;
      sn <- rd h n ;;
      h <- freeg h (h_gin sn) ;;
      h <- wr h n (w_gin None) ;;
      h <- chain_slices h (Some n) (h_next s) ;;
      h <- chain_slices h (Some a) (Some n) ;;
      hset_input_gate h n (h_cod sn) true
  else Undef.
(** Tube::sample(t), codac_Tube.cpp 525-531 *)
Definition hsample (fuel : nat) (h : heap) (first : option nat) (t : R) : out heap :=
  a <- find fuel h t first None ;; hsample_at h t a.

(** Slice::merge_slices, codac_Slice.cpp 580-607 *)
Definition hmerge (h : heap) (a : nat) (p : option nat) : out heap :=
  match p with
  | None => Undef
  | Some b =>
      s1 <- rd h a ;; s2 <- rd h b ;;
      match h_next s1, h_gout s1, h_gin s2 with
      | Some b', Some g, Some g' =>
          if Nat.eqb b b' && Reqb (h_ub s1) (h_lb s2) && Nat.eqb g g' then
            h <- hset_envelope h a (hull (h_cod s1) (h_cod s2)) true ;;
            h <- wr h a (w_dom (Rmin (h_lb s1) (h_lb s2)) (Rmax (h_ub s1) (h_ub s2))) ;;
            v <- rdg h (h_gout s2) ;;
            let n := hnxt h in
            let h := mkHeap (hsl h) (put (hgt h) n (Some v)) (S n) in
            h <- wr h a (w_gout (Some n)) ;;
            h <- wr h b (w_prev None) ;;
            h <- wr h b (w_next None) ;;
            h <- del_slice h b ;;
            h <- wr h a (w_next (h_next s2)) ;;
            match h_next s2 with
            | Some c => h <- wr h c (w_prev (Some a)) ;; wr h c (w_gin (Some n))
            | None => Done h
            end
          else Undef
      | _, _, _ => Undef
      end
  end.
(** Tube::remove_gate, codac_Tube.cpp 594-604; the assertions on the domain of the tube are left out, the one on the slice is kept *)
Definition hremove_gate (fuel : nat) (h : heap) (first : option nat) (t : R) : out heap :=
  b <- find fuel h t first None ;;
  s2 <- rd h b ;;
  if Reqb (h_lb s2) t then match h_prev s2 with Some a => hmerge h a (Some b) | None => Undef end else Undef.

(** Tube::slice(int), codac_Tube.cpp 338-359, for a rank below the number of slices *)
Fixpoint nth_slice (h : heap) (p : option nat) (k : nat) : out nat :=
  match p with
  | None => Undef
  | Some a => match k with O => Done a | S k' => s <- rd h a ;; nth_slice h (h_next s) k' end
  end.

(** Programs on objects Tube: codac_Tube.cpp 33-42, 122-125, 169-181, 198-245, 525-564, 594-604, codac_Slice.cpp 443-518 *)
Inductive hop :=
| HNew (d : nat) (lb ub : R) (y : itv)                 (* Tube d([lb,ub], y) *)
| HAssign (d s : nat)                                  (* d = s, or Tube d(s) when d has no structure *)
| HKill (d : nat)                                      (* end of the life of d *)
| HSample (d : nat) (t : R)                            (* d.sample(t) *)
| HRemove (d : nat) (t : R)                            (* d.remove_gate(t) *)
| HSet (d k : nat) (y : itv)                           (* d.set(y, k) *)
| HEnvelope (d k : nat) (y : itv) (c : bool)           (* d.slice(k)->set_envelope(y, c) *)
| HIn (d k : nat) (g : itv) (c : bool)                 (* d.slice(k)->set_input_gate(g, c) *)
| HOut (d k : nat) (g : itv) (c : bool).               (* d.slice(k)->set_output_gate(g, c) *)

(** An operation on the slices of the object [d]; codac_Tube.cpp 525-604 *)
Definition on (w : world) (d : nat) (f : heap -> option nat -> out heap) : out world :=
  h <- f (mem w) (tb w d) ;; Done (mkW h (tb w)).
(** One call, codac_Tube.cpp 33-42, 122-125, 169-181, 198-245, 525-564, 594-604 *)
Definition hexec (fuel : nat) (w : world) (o : hop) : out world :=
  match o with
  | HNew d l u y => let r := new_slice (mem w) l u y y y in Done (mkW (snd r) (fun i => if Nat.eqb i d then Some (fst r) else tb w i))
  | HAssign d s => assign fuel w d s
  | HKill d => kill fuel w d
  | HSample d t => on w d (fun h p => hsample fuel h p t)
  | HRemove d t => on w d (fun h p => hremove_gate fuel h p t)
  | HSet d k y => on w d (fun h p => a <- nth_slice h p k ;; hslice_set h a y)
  | HEnvelope d k y c => on w d (fun h p => a <- nth_slice h p k ;; hset_envelope h a y c)
  | HIn d k g c => on w d (fun h p => a <- nth_slice h p k ;; hset_input_gate h a g c)
  | HOut d k g c => on w d (fun h p => a <- nth_slice h p k ;; hset_output_gate h a g c)
  end.
(** A sequence of calls, codac_Tube.cpp 33-619 *)
Fixpoint hrun (fuel : nat) (w : world) (ops : list hop) : out world :=
  match ops with [] => Done w | o :: r => w <- hexec fuel w o ;; hrun fuel w r end.

(** Tubes of an array, one after the other: the calls of the loop of TubeVector::operator=, codac_TubeVector.cpp 197-198 *)
Fixpoint assign_all (fuel : nat) (w : world) (ds ss : list nat) : out world :=
  match ds, ss with d :: ds', s :: ss' => w <- assign fuel w d s ;; assign_all fuel w ds' ss' | _, _ => Done w end.
(** delete[] m_v_tubes, codac_TubeVector.cpp 189-192 *)
Fixpoint kill_all (fuel : nat) (w : world) (ds : list nat) : out world :=
  match ds with [] => Done w | d :: r => w <- kill fuel w d ;; kill_all fuel w r end.
(** TubeVector::operator=(x), codac_TubeVector.cpp 187-201: [old] the components of the vector, [src] those of x, [new] the
    objects made by new Tube[m_n], one for each component of x; [self]: x is the vector itself, whose components are now the new ones *)
Definition vec_assign (fuel : nat) (w : world) (self : bool) (old src new : list nat) : out world :=
  w <- kill_all fuel w old ;; assign_all fuel w new (if self then new else src).
