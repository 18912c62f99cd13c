(** * Expressions of the components of a function (src/core/functions/codac_TFunction.cpp, src/core/tools/codac_Tools.cpp)

    Simplifications: strings are lists of characters; the C locale; the function of IBEX is represented by the dimension of its image. *)

From Coq Require Import List Bool Arith Ascii.
Import ListNotations.

(** a string, codac_TFunction.h 90 *)
Definition str := list ascii.
(** isspace in the C locale, codac_Tools.cpp 39-40 *)
Definition isspace (c : ascii) : bool := let n := nat_of_ascii c in (Nat.leb 9 n && Nat.leb n 13) || Nat.eqb n 32.
(** the first erase, codac_Tools.cpp 39 *)
Fixpoint trim_left (s : str) : str := match s with [] => [] | c :: r => if isspace c then trim_left r else s end.
(** Tools::trim, codac_Tools.cpp 37-41; the second erase (line 40) is the first one on the reversed string *)
Definition trim (s : str) : str := rev (trim_left (rev (trim_left s))).
(** input.find(search, index) at one position, codac_Tools.cpp 28: the text after [search] *)
Fixpoint prefix_of (search s : str) : option str :=
  match search, s with
  | [], _ => Some s
  | a :: search, b :: s => if Ascii.eqb a b then prefix_of search s else None
  | _ :: _, [] => None
  end.
(** input.find(search, index), codac_Tools.cpp 28: the text before the occurrence and the one after *)
Fixpoint find_from (search s : str) : option (str * str) :=
  match prefix_of search s with
  | Some after => Some ([], after)
  | None => match s with [] => None | c :: r => option_map (fun p => (c :: fst p, snd p)) (find_from search r) end
  end.
(** Tools::replace_all, codac_Tools.cpp 22-35, from the position of the rest [s] of the input; at most [n] iterations of the loop of lines 26-34
    ([None]: not ended). An occurrence found is replaced and the search goes on after the text put in place *)
Fixpoint replace_all (n : nat) (search format s : str) : option str :=
  match n with
  | O => None
  | S n => match find_from search s with
           | None => Some s
           | Some (before, after) => option_map (fun r => before ++ format ++ r) (replace_all n search format after)
           end
  end.

(** getline(iss, token, ';') until the end of the stream, codac_TFunction.cpp 182; [cur]: the characters already read *)
Fixpoint tokens (cur : str) (s : str) : list str :=
  match s with
  | [] => match cur with [] => [] | _ => [cur] end
  | c :: r => if Ascii.eqb c ";" then cur :: tokens [] r else tokens (cur ++ [c]) r
  end.
(** token.substr(1,token.size()-1), codac_TFunction.cpp 187; [None]: exception *)
Definition drop_first (s : str) : option str := match s with [] => None | _ :: r => Some r end.
(** TFunction::expr(i), codac_TFunction.cpp 174-200, with the expression and the dimension of the image of the function; [None]: exception or assert *)
Definition expr_i (m_expr : str) (m_img_dim i : nat) : option str :=
  match nth_error (tokens [] (trim m_expr)) i with
  | None => None
  | Some token =>
      match (if Nat.eqb i 0 then drop_first token else Some token) with
      | None => None
      | Some token => Some (trim (if Nat.eqb i (m_img_dim - 1) then removelast token else token))
      end
  end.
(** a function: expression and dimension of the image, codac_TFunction.cpp 233-237 *)
Record tfun := mkTF { tf_expr : str; tf_dim : nat }.
(** TFunction::operator[], codac_TFunction.cpp 157-167: the expression is the one of the whole function, whatever [i] *)
Definition tf_component (f : tfun) (i : nat) : tfun := mkTF (tf_expr f) 1.
(** TFunction::expr(i), codac_TFunction.cpp 174-200; [None] when the assertion of line 176 fails *)
Definition tf_expr_i (f : tfun) (i : nat) : option str := if Nat.ltb i (tf_dim f) then expr_i (tf_expr f) (tf_dim f) i else None.
(** TFunction(const Function&), codac_TFunction.cpp 24-40: the expression [s] printed by IBEX, where commas replace the semicolons (line 29) *)
Definition tf_of_ibex (s : str) (dim : nat) : tfun := mkTF (map (fun c => if Ascii.eqb c ";" then ","%char else c) s) dim.
