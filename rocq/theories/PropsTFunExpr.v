(** * C119: expressions of the components of a function; C120: replacement in strings *)

From Coq Require Import List Bool Arith Ascii String Lia.
Import ListNotations.
From Verif Require Import TFunExpr.

(** ** Spec *)
Definition spaces (w : str) : Prop := Forall (fun c => isspace c = true) w.
(** [r] is [e] without the spaces at both ends *)
Definition trimmed (e r : str) : Prop := (exists w1 w2, spaces w1 /\ spaces w2 /\ e = w1 ++ r ++ w2) /\
  (forall c r', r = c :: r' -> isspace c = false) /\ (forall c r', r = r' ++ [c] -> isspace c = false).
(** components separated by semicolons *)
Fixpoint joined (es : list str) : str := match es with [] => [] | [e] => e | e :: es => e ++ ";"%char :: joined es end.
Definition plain (e : str) : Prop := ~ List.In ";"%char e.

(** ** Spaces *)
Lemma trim_left_spec s : exists w, spaces w /\ s = w ++ trim_left s /\ forall c r, trim_left s = c :: r -> isspace c = false.
Proof.
  induction s as [|c s (w & W & E & N)]; cbn [trim_left].
  - exists []. split; [constructor|]. split; auto. discriminate.
  - destruct (isspace c) eqn:Ec.
    + exists (c :: w). split; [constructor; auto|]. split; [cbn; congruence|auto].
    + exists []. split; [constructor|]. split; auto. intros c' r [= -> _]. auto.
Qed.
Lemma spaces_rev w : spaces w -> spaces (rev w).
Proof. intros W. apply Forall_forall. intros c Hc. apply in_rev in Hc. revert c Hc. apply Forall_forall. exact W. Qed.
Lemma trim_spec s : trimmed s (trim s).
Proof.
  unfold trim. destruct (trim_left_spec s) as (w & W & E & N). destruct (trim_left_spec (rev (trim_left s))) as (v & V & F & M).
  assert (G : trim_left s = rev (trim_left (rev (trim_left s))) ++ rev v). { rewrite <- rev_app_distr, <- F, rev_involutive. reflexivity. }
  split; [|split].
  - exists w, (rev v). split; auto. split; [apply spaces_rev; auto|]. rewrite <- G. auto.
  - intros c r' Ec. rewrite Ec in G. apply (N c (r' ++ rev v)). rewrite G. reflexivity.
  - intros c r' Ec. apply (M c (rev r')). rewrite <- (rev_involutive (trim_left (rev (trim_left s)))), Ec, rev_app_distr. reflexivity.
Qed.
(** the result of [trim] is the only one *)
Lemma cons_form w1 r1 w2 r2 : spaces w1 -> spaces w2 -> (forall c r, r1 = c :: r -> isspace c = false) -> (forall c r, r2 = c :: r -> isspace c = false) ->
  r1 <> [] -> w1 ++ r1 = w2 ++ r2 -> r1 = r2 \/ r2 = [].
Proof.
  intros W1. revert w2. induction W1 as [|c w1 Hc W1 IH]; intros w2 W2 N1 N2 Ne E; cbn in E.
  - destruct W2 as [|d w2 Hd W2]; [left; auto|]. exfalso. cbn in E. rewrite (N1 d (w2 ++ r2) E) in Hd. discriminate.
  - destruct W2 as [|d w2 Hd W2]; cbn in E.
    + destruct r2 as [|d r2]; auto. injection E as -> _. rewrite (N2 d r2 eq_refl) in Hc. discriminate.
    + injection E as -> E. eapply IH; eauto.
Qed.
Lemma all_spaces w1 r w2 : spaces (w1 ++ r ++ w2) -> (forall c r', r = c :: r' -> isspace c = false) -> r = [].
Proof.
  intros S N. destruct r as [|c r]; auto. exfalso. apply Forall_app in S. destruct S as (_ & S). inversion S; subst. rewrite (N c r eq_refl) in H1. discriminate.
Qed.
Theorem trimmed_unique e r r' : trimmed e r -> trimmed e r' -> r = r'.
Proof.
  intros ((w1 & w2 & W1 & W2 & E) & A & B) ((v1 & v2 & V1 & V2 & F) & C & D).
  destruct r as [|c r].
  { symmetry. apply (all_spaces v1 r' v2); auto. rewrite <- F, E. apply Forall_app. auto. }
  destruct r' as [|c' r'].
  { apply (all_spaces w1 (c :: r) w2); auto. rewrite <- E, F. apply Forall_app. auto. }
  assert (G : w1 ++ (c :: r) ++ w2 = v1 ++ (c' :: r') ++ v2) by congruence.
  assert (P1 : (c :: r) ++ w2 = (c' :: r') ++ v2).
  { destruct (cons_form w1 ((c :: r) ++ w2) v1 ((c' :: r') ++ v2)) as [Q|Q]; auto; [intros d q [= <- _]; eauto|intros d q [= <- _]; eauto|discriminate|discriminate]. }
  apply (f_equal (@rev ascii)) in P1. rewrite !rev_app_distr in P1.
  assert (X : forall q : str, (forall d q', q = q' ++ [d] -> isspace d = false) -> forall d q', rev q = d :: q' -> isspace d = false).
  { intros q Hq d q' Eq. apply (Hq d (rev q')). rewrite <- (rev_involutive q), Eq. reflexivity. }
  destruct (cons_form (rev w2) (rev (c :: r)) (rev v2) (rev (c' :: r'))) as [Q|Q]; auto using spaces_rev.
  - apply X. auto.
  - apply X. auto.
  - intros Q. apply (f_equal (@rev ascii)) in Q. rewrite rev_involutive in Q. discriminate.
  - apply (f_equal (@rev ascii)) in Q. rewrite !rev_involutive in Q. auto.
  - apply (f_equal (@rev ascii)) in Q. rewrite rev_involutive in Q. discriminate.
Qed.

(** ** Components *)
Lemma tokens_app e : plain e -> forall cur s, tokens cur (e ++ s) = tokens (cur ++ e) s.
Proof.
  induction e as [|c e IH]; intros P cur s; cbn [app]; [rewrite app_nil_r; auto|]. cbn [tokens].
  destruct (Ascii.eqb c ";") eqn:Ec; [apply Ascii.eqb_eq in Ec; exfalso; apply P; left; auto|]. rewrite IH by (intros Q; apply P; right; auto). rewrite <- app_assoc. reflexivity.
Qed.
(** the tokens of an expression: the last one is followed by a parenthesis *)
Lemma tokens_joined es : forall cur, es <> [] -> Forall plain es ->
  tokens cur (joined es ++ [")"%char]) = match es with [] => [] | [e] => [cur ++ e ++ [")"%char]] | e :: es => (cur ++ e) :: tokens [] (joined es ++ [")"%char]) end.
Proof.
  intros cur Ne P. destruct es as [|e [|e' es]]; [congruence| |].
  - cbn [joined]. inversion P; subst. rewrite tokens_app by auto. cbn. destruct ((cur ++ e) ++ [")"%char]) eqn:Q; [destruct (cur ++ e); discriminate|]. rewrite <- Q, <- app_assoc. reflexivity.
  - inversion P; subst. cbn [joined]. rewrite <- app_assoc. rewrite tokens_app by auto. reflexivity.
Qed.
Lemma tokens_nth es : es <> [] -> Forall plain es -> forall cur i e, nth_error es i = Some e ->
  nth_error (tokens cur (joined es ++ [")"%char])) i =
    Some ((if Nat.eqb i 0 then cur else []) ++ e ++ (if Nat.eqb i (List.length es - 1) then [")"%char] else [])).
Proof.
  induction es as [|x es IH]; intros Ne P cur i e Hi; [congruence|]. rewrite tokens_joined by auto. inversion P; subst.
  destruct es as [|y es].
  - destruct i as [|i]; cbn in Hi; [|destruct i; discriminate]. injection Hi as ->. reflexivity.
  - destruct i as [|i].
    + cbn in Hi. injection Hi as ->. cbn. rewrite app_nil_r. reflexivity.
    + cbn [nth_error] in Hi |- *. rewrite (IH ltac:(discriminate) H2 [] i e Hi). f_equal. cbn [Nat.eqb]. f_equal; [destruct (Nat.eqb i 0); auto|]. f_equal.
      cbn [List.length]. replace (S (S (List.length es)) - 1)%nat with (S (List.length es)) by lia. replace (S (List.length es) - 1)%nat with (List.length es) by lia. reflexivity.
Qed.
Lemma trim_paren w1 w2 s : spaces w1 -> spaces w2 -> trim (w1 ++ "("%char :: s ++ [")"%char] ++ w2) = "("%char :: s ++ [")"%char].
Proof.
  intros W1 W2. apply (trimmed_unique (w1 ++ "("%char :: s ++ [")"%char] ++ w2)); [apply trim_spec|]. split; [|split].
  - exists w1, w2. split; auto. split; auto. cbn. rewrite <- app_assoc. reflexivity.
  - intros c r [= <- _]. reflexivity.
  - intros c r E. change ("("%char :: s ++ [")"%char]) with (("("%char :: s) ++ [")"%char]) in E. apply app_inj_tail in E. destruct E as (_ & <-). reflexivity.
Qed.
(** C119: for an expression [(e0;e1;...)] with as many components as the dimension of the function, [expr(i)] is the component [i] without the spaces around. *)
Theorem C119_expr_partial : forall w1 w2 es i e, spaces w1 -> spaces w2 -> Forall plain es -> nth_error es i = Some e ->
  exists r, tf_expr_i (mkTF (w1 ++ "("%char :: joined es ++ [")"%char] ++ w2) (List.length es)) i = Some r /\ trimmed e r.
Proof.
  intros w1 w2 es i e W1 W2 P Hi. exists (trim e). split; [|apply trim_spec].
  assert (L : (i < List.length es)%nat) by (apply nth_error_Some; congruence). assert (Ne : es <> []) by (intros ->; cbn in L; lia).
  unfold tf_expr_i. cbn [tf_dim tf_expr]. rewrite (proj2 (Nat.ltb_lt _ _) L). unfold expr_i. rewrite trim_paren by auto.
  change (tokens [] ("("%char :: joined es ++ [")"%char])) with (tokens ["("%char] (joined es ++ [")"%char])). rewrite (tokens_nth es Ne P _ i e Hi).
  assert (R : forall x, (if Nat.eqb i (List.length es - 1) then removelast (x ++ (if Nat.eqb i (List.length es - 1) then [")"%char] else [])) else x ++ (if Nat.eqb i (List.length es - 1) then [")"%char] else [])) = x).
  { intros x. destruct (Nat.eqb i (List.length es - 1)); [apply removelast_last|apply app_nil_r]. }
  destruct (Nat.eqb i 0); cbn [app drop_first]; rewrite R; reflexivity.
Qed.
(** C119: an expression without parentheses loses its first and its last characters. *)
Theorem C119_scalar : forall a s b, plain (a :: s ++ [b]) -> isspace a = false -> isspace b = false ->
  exists r, tf_expr_i (mkTF (a :: s ++ [b]) 1) 0 = Some r /\ trimmed s r.
Proof.
  intros a s b P A B. exists (trim s). split; [|apply trim_spec]. unfold tf_expr_i, expr_i. cbn [tf_dim tf_expr Nat.ltb Nat.leb].
  assert (T : trim (a :: s ++ [b]) = a :: s ++ [b]).
  { apply (trimmed_unique (a :: s ++ [b])); [apply trim_spec|]. split; [|split].
    - exists [], []. split; [constructor|]. split; [constructor|]. cbn. rewrite app_nil_r. reflexivity.
    - intros c r [= <- _]. auto.
    - intros c r E. change (a :: s ++ [b]) with ((a :: s) ++ [b]) in E. apply app_inj_tail in E. destruct E as (_ & <-). auto. }
  rewrite T. rewrite <- (app_nil_r (a :: s ++ [b])) at 1. rewrite (tokens_app _ P). cbn -[trim removelast]. rewrite removelast_last. reflexivity.
Qed.
Local Open Scope list_scope.
Definition S_ (s : string) : str := list_ascii_of_string s.
Arguments S_ s%string.
(** a scalar function, and a component of a function *)
Theorem C119_scalar_refuted : tf_expr_i (mkTF (S_ "x1+sin(t)*x2") 1) 0 = Some (S_ "1+sin(t)*x").
Proof. reflexivity. Qed.
Theorem C119_component_refuted : tf_expr_i (mkTF (S_ "(x1;x2)") 2) 1 = Some (S_ "x2") /\
  tf_expr_i (tf_component (mkTF (S_ "(x1;x2)") 2) 1) 0 = Some (S_ "x") /\ tf_expr_i (tf_component (mkTF (S_ "(x1;x2)") 2) 0) 0 = Some (S_ "x").
Proof. repeat split. Qed.
(** C119: for a function made from a function of IBEX, only [expr(0)] returns. *)
Lemma trim_plain s : plain s -> plain (trim s).
Proof. intros P Q. destruct (trim_spec s) as ((w1 & w2 & _ & _ & E) & _). apply P. rewrite E. apply in_or_app. right. apply in_or_app. auto. Qed.
Theorem C119_ibex_refuted : forall s dim i, (0 < i)%nat -> tf_expr_i (tf_of_ibex s dim) i = None.
Proof.
  intros s dim i Hi. unfold tf_expr_i. destruct (Nat.ltb i _); auto. unfold expr_i, tf_of_ibex. cbn [tf_expr tf_dim].
  set (e := map _ s). assert (P : plain e).
  { intros Q. apply in_map_iff in Q. destruct Q as (c & E & _). destruct (Ascii.eqb c ";") eqn:Ec; [discriminate|]. apply Ascii.eqb_neq in Ec. congruence. }
  apply trim_plain in P. rewrite <- (app_nil_r (trim e)), (tokens_app _ P). cbn [app tokens]. destruct i as [|i]; [lia|]. destruct (trim e); destruct i; reflexivity.
Qed.
Example C119_ibex_ex : tf_expr_i (tf_of_ibex (S_ "(x1;x2)") 2) 0 = Some (S_ "x1,x2)") /\ tf_expr_i (tf_of_ibex (S_ "(x1;x2)") 2) 1 = None.
Proof. split; reflexivity. Qed.
Example C119_expr_ex : tf_expr_i (mkTF (S_ " ( cos(x1) ; cos(x2[2])+x1 ; x2[1] ) ") 3) 1 = Some (S_ "cos(x2[2])+x1") /\
  S_ " ( cos(x1) ; cos(x2[2])+x1 ; x2[1] ) " = S_ " " ++ "("%char :: joined [S_ " cos(x1) "; S_ " cos(x2[2])+x1 "; S_ " x2[1] "] ++ [")"%char] ++ S_ " ".
Proof. split; reflexivity. Qed.


(** ** C120: replacement of the occurrences of a string *)
(** [search] occurs in [s] *)
Definition occurs (search s : str) : Prop := exists u v, s = u ++ search ++ v.
(** [s] is cut at the first occurrence of [search], and so on in what follows; the occurrences become [format] *)
Inductive replaced (search format : str) : str -> str -> Prop :=
| R_none s : ~ occurs search s -> replaced search format s s
| R_first before after r : (forall u v, before ++ search ++ after = u ++ search ++ v -> (List.length before <= List.length u)%nat) ->
    replaced search format after r -> replaced search format (before ++ search ++ after) (before ++ format ++ r).

Lemma prefix_of_some search : forall s after, prefix_of search s = Some after <-> s = search ++ after.
Proof.
  induction search as [|a search IH]; intros s after; cbn; [split; congruence|]. destruct s as [|b s]; [split; discriminate|].
  destruct (Ascii.eqb a b) eqn:E.
  - apply Ascii.eqb_eq in E. subst b. rewrite IH. split; [intros ->; auto|intros [= ->]; auto].
  - apply Ascii.eqb_neq in E. split; [discriminate|intros [= -> _]; congruence].
Qed.
Lemma find_from_some search : forall s before after, find_from search s = Some (before, after) ->
  s = before ++ search ++ after /\ forall u v, s = u ++ search ++ v -> (List.length before <= List.length u)%nat.
Proof.
  induction s as [|c s IH]; intros before after F; cbn in F.
  - destruct (prefix_of search []) as [q|] eqn:P; [|discriminate]. injection F as <- <-. apply prefix_of_some in P. split; auto. intros. cbn. lia.
  - destruct (prefix_of search (c :: s)) as [q|] eqn:P.
    + injection F as <- <-. apply prefix_of_some in P. split; auto. intros. cbn. lia.
    + destruct (find_from search s) as [[b a]|]; [|discriminate]. cbn in F. injection F as <- <-. destruct (IH b a eq_refl) as (E & M). split; [cbn; congruence|].
      intros u v Eu. destruct u as [|d u].
      * exfalso. assert (Q : prefix_of search (c :: s) = Some v) by (apply prefix_of_some; exact Eu). congruence.
      * cbn in Eu. injection Eu as _ Eu. cbn. apply le_n_S. eapply M; eauto.
Qed.
Lemma find_from_none search : forall s, find_from search s = None -> ~ occurs search s.
Proof.
  induction s as [|c s IH]; intros F (u & v & E); cbn in F.
  - destruct (prefix_of search []) as [q|] eqn:P; [discriminate|]. destruct u; [|discriminate]. cbn in E. apply prefix_of_some in E. congruence.
  - destruct (prefix_of search (c :: s)) as [q|] eqn:P; [discriminate|]. destruct (find_from search s) as [[b a]|]; [discriminate|].
    destruct u as [|d u]; cbn in E; [apply prefix_of_some in E; congruence|]. injection E as _ E. apply IH; auto. exists u, v. auto.
Qed.
Theorem C120_replace_all : forall search format s, search <> [] ->
  exists r, (forall n, (List.length s < n)%nat -> replace_all n search format s = Some r) /\ replaced search format s r.
Proof.
  intros search format s Ne. remember (List.length s) as k eqn:K. assert (Hk : (List.length s <= k)%nat) by lia. clear K. revert s Hk.
  induction k as [|k IH]; intros s Hk.
  - destruct s; [|cbn in Hk; lia]. exists []. split.
    + intros [|n] Hn; [lia|]. cbn. destruct search; [congruence|]. reflexivity.
    + constructor. intros (u & v & E). destruct u; [|discriminate]. destruct search; [congruence|discriminate].
  - destruct (find_from search s) as [[b a]|] eqn:F.
    + destruct (find_from_some search s b a F) as (E & M). destruct (IH a) as (r & Hr & R).
      { apply (f_equal (@List.length ascii)) in E. rewrite !app_length in E. destruct search; [congruence|]. cbn in E. lia. }
      exists (b ++ format ++ r). split.
      * intros [|n] Hn; [lia|]. cbn [replace_all]. rewrite F. rewrite Hr by lia. reflexivity.
      * rewrite E in M |- *. constructor; auto.
    + exists s. split; [intros [|n] Hn; [lia|]; cbn [replace_all]; rewrite F; reflexivity|]. constructor. apply find_from_none. auto.
Qed.
(** the result is the only one allowed by the spec *)
Theorem C120_unique : forall search format s r r', search <> [] -> replaced search format s r -> replaced search format s r' -> r = r'.
Proof.
  intros search format s r r' Ne H. revert r'. induction H as [s N|b a r M H IH]; intros r' H'.
  - inversion H' as [|b a q M Q]; subst; auto. exfalso. apply N. exists b, a. auto.
  - inversion H' as [s N|b' a' q M' Q E]; subst.
    + exfalso. apply N. exists b, a. auto.
    + assert (L : List.length b = List.length b').
      { apply Nat.le_antisymm; [eapply M; eauto|eapply M'; eauto]. }
      assert (A : b' = b /\ search ++ a' = search ++ a).
      { clear - E L. revert b' L E. induction b as [|x b IHb]; intros [|y b'] L E; cbn in L, E; try discriminate; auto. injection E as -> E. destruct (IHb b') as (-> & A); auto. }
      destruct A as (-> & A). apply app_inv_head in A. subst a'. rewrite (IH q); auto.
Qed.
(** C120: with an empty string to look for, the loop never ends. *)
Theorem C120_empty_search_refuted : forall n format s, replace_all n [] format s = None.
Proof.
  induction n as [|n IH]; intros format s; auto. cbn [replace_all]. assert (F : find_from [] s = Some ([], s)) by (destruct s; reflexivity).
  rewrite F, IH. reflexivity.
Qed.
Example C120_ex : replace_all 20 (S_ "aa") (S_ "a") (S_ "aaaab;aa") = Some (S_ "aab;a").
Proof. reflexivity. Qed.

Print Assumptions C119_expr_partial.
Print Assumptions C119_scalar.
Print Assumptions C119_scalar_refuted.
Print Assumptions C119_component_refuted.
Print Assumptions C119_ibex_refuted.
Print Assumptions C120_replace_all.
Print Assumptions C120_unique.
Print Assumptions C120_empty_search_refuted.
