(** * Reversal and opacity of color maps (src/core/graphics/codac_ColorMap.cpp)

    Simplifications: exact arithmetic instead of [float]; the map is the list of its entries with increasing keys. *)
From Coq Require Import Reals Bool List.
From Verif Require Import Itv ColorMap.
Import ListNotations.
Open Scope R_scope.

(** std::map::operator[] followed by an assignment, codac_ColorMap.cpp 35, 40, 47: the entry is inserted at its place, or replaced *)
Fixpoint put (k : R) (c : rgb) (m : cmap) : cmap :=
  match m with
  | [] => [(k, c)]
  | (k', c') :: r => if Rltb k k' then (k, c) :: m else if Reqb k k' then (k, c) :: r else (k', c') :: put k c r
  end.
(** ColorMap::reverse, codac_ColorMap.cpp 43-49 *)
Definition reverse (m : cmap) : cmap := fold_left (fun acc e => put (1 - fst e) (snd e) acc) m [].
(** ColorMap::set_opacity, codac_ColorMap.cpp 51-56; [None]: failed assertion *)
Definition set_opacity (alpha : R) (m : cmap) : option cmap :=
  if Rleb 0 alpha && Rleb alpha 1 then Some (map (fun e => (fst e, mkRGB (c_r (snd e)) (c_g (snd e)) (c_b (snd e)) alpha)) m) else None.
(** ColorMap::is_opaque, codac_ColorMap.cpp 58-64 *)
Fixpoint is_opaque (m : cmap) : bool := match m with [] => true | (_, c) :: r => if Reqb (c_a c) 1 then is_opaque r else false end.
