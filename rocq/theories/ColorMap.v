(** * Colors and color maps (src/core/graphics/codac_colors.cpp, src/core/graphics/codac_ColorMap.cpp)

    Simplifications: exact arithmetic instead of [float]; a hue that is not a number is [None]. *)

From Coq Require Import Reals Lra Bool List.
From Verif Require Import Itv.
Import ListNotations.
Open Scope R_scope.

(** struct rgb, codac_colors.h 23-29 *)
Record rgb := mkRGB { c_r : R; c_g : R; c_b : R; c_a : R }.
(** struct hsv, codac_colors.h 35-41 *)
Record hsv := mkHSV { c_h : R; c_s : R; c_v : R; c_ha : R }.

(** rgb2hsv, codac_colors.cpp 45-98; [None]: the hue is NAN (lines 73-77) *)
Definition rgb2hsv (c : rgb) : option hsv :=
  let mn := if Rltb (c_r c) (c_g c) then c_r c else c_g c in
  let mn := if Rltb mn (c_b c) then mn else c_b c in
  let mx := if Rltb (c_g c) (c_r c) then c_r c else c_g c in
  let mx := if Rltb (c_b c) mx then mx else c_b c in
  let delta := mx - mn in
  if Rltb delta (1 / 100000) then Some (mkHSV 0 0 mx (c_a c))
  else if Rltb 0 mx then
    let s := delta / mx in
    let h := if Rleb mx (c_r c) then (c_g c - c_b c) / delta
             else if Rleb mx (c_g c) then 2 + (c_b c - c_r c) / delta
             else 4 + (c_r c - c_g c) / delta in
    let h := h * 60 in
    let h := if Rltb h 0 then h + 360 else h in
    Some (mkHSV h s mx (c_a c))
  else None.
(** (int)hh, codac_colors.cpp 120, for -1 < hh < 6 *)
Definition sextant (hh : R) : nat :=
  if Rltb hh 1 then 0 else if Rltb hh 2 then 1 else if Rltb hh 3 then 2 else if Rltb hh 4 then 3 else if Rltb hh 5 then 4 else 5.
(** hsv2rgb, codac_colors.cpp 100-167 *)
Definition hsv2rgb (c : hsv) : rgb :=
  let s := c_s c in let v := c_v c in let a := c_ha c in
  if Rleb s 0 then mkRGB v v v a
  else
    let hh := if Rleb 360 (c_h c) then 0 else c_h c in
    let hh := hh / 60 in
    let i := sextant hh in
    let ff := hh - INR i in
    let p := v * (1 - s) in
    let q := v * (1 - s * ff) in
    let t := v * (1 - s * (1 - ff)) in
    match i with
    | 0%nat => mkRGB v t p a
    | 1%nat => mkRGB q v p a
    | 2%nat => mkRGB p v t a
    | 3%nat => mkRGB p q v a
    | 4%nat => mkRGB t p v a
    | _ => mkRGB v p q a
    end.

(** the assertion of make_rgb, codac_colors.cpp 179 *)
Definition rgb_valid (c : rgb) : bool :=
  Rleb 0 (c_r c) && Rleb (c_r c) 1 && (Rleb 0 (c_g c) && Rleb (c_g c) 1) && (Rleb 0 (c_b c) && Rleb (c_b c) 1) && (Rleb 0 (c_a c) && Rleb (c_a c) 1).
(** the assertion of make_hsv, codac_colors.cpp 195 *)
Definition hsv_valid (c : hsv) : bool :=
  Rleb 0 (c_h c) && Rleb (c_h c) 360 && (Rleb 0 (c_s c) && Rleb (c_s c) 1) && (Rleb 0 (c_v c) && Rleb (c_v c) 1) && (Rleb 0 (c_ha c) && Rleb (c_ha c) 1).
(** fmod(x,360), codac_ColorMap.cpp 102, for 0 <= x < 720 *)
Definition fmod360 (x : R) : R := if Rltb x 360 then x else x - 360.
(** the two numbers mixed, codac_ColorMap.cpp 89-92 and 102-105 *)
Definition mix (x y ratio : R) : R := x + (y - x) * ratio.
(** the hue, codac_ColorMap.cpp 99-102 *)
Definition mix_hue (h_lb h_ub ratio : R) : R :=
  let h_lb := if Rltb 180 (Rabs (h_lb - h_ub)) then h_lb + 360 else h_lb in
  fmod360 (mix h_lb h_ub ratio).
(** the interpolation modes, codac_ColorMap.cpp 86-110 *)
Inductive interpol := ModeRGB | ModeHSV.
(** the color between two others, codac_ColorMap.cpp 86-106; [None]: failed assertion of make_rgb or make_hsv, or hue not a number *)
Definition mix_color (mode : interpol) (lb ub : rgb) (ratio : R) : option rgb :=
  match mode with
  | ModeRGB =>
      let c := mkRGB (mix (c_r lb) (c_r ub) ratio) (mix (c_g lb) (c_g ub) ratio) (mix (c_b lb) (c_b ub) ratio) (mix (c_a lb) (c_a ub) ratio) in
      if rgb_valid c then Some c else None
  | ModeHSV =>
      match rgb2hsv lb, rgb2hsv ub with
      | Some l, Some u =>
          let c := mkHSV (mix_hue (c_h l) (c_h u) ratio) (mix (c_s l) (c_s u) ratio) (mix (c_v l) (c_v u) ratio) (mix (c_ha l) (c_ha u) ratio) in
          if hsv_valid c then Some (hsv2rgb c) else None
      | _, _ => None
      end
  end.
(** std::map<float,rgb> with increasing keys, codac_ColorMap.h 131 *)
Definition cmap := list (R * rgb).
(** find, lower_bound and the entry before it, codac_ColorMap.cpp 77-84 and 113-114; [prev]: the entry before the rest of the map *)
Fixpoint color_at (mode : interpol) (prev : option (R * rgb)) (m : cmap) (x : R) : option rgb :=
  match m with
  | [] => None
  | (k, c) :: r =>
      if Reqb k x then Some c
      else if Rltb x k then
        match prev with
        | None => None
        | Some (k0, c0) => mix_color mode c0 c ((x - k0) / (k - k0))
        end
      else color_at mode (Some (k, c)) r x
  end.
(** the index in the map, codac_ColorMap.cpp 74-75 *)
Definition real_index (m : cmap) (r : R) : R :=
  let lb := fst (hd (0, mkRGB 0 0 0 1) m) in
  let ub := fst (last m (0, mkRGB 0 0 0 1)) in
  lb + r * (ub - lb).
(** ColorMap::color(r), codac_ColorMap.cpp 66-115; [None]: failed assertion *)
Definition color (mode : interpol) (m : cmap) (r : R) : option rgb :=
  if Nat.leb 2 (length m) && (Rleb 0 r && Rleb r 1) then color_at mode None m (real_index m r) else None.
