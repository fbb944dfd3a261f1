(** Which texts are well-formed markup, and which names they refer to.
    Nothing here refers to the model. *)
From Verif Require Import Base LexSpec.
Open Scope N_scope.

(** [(Some p, n)] is the qualified name [p.n], [(None, n)] the plain [n]. *)
Definition mname : Type := option (list N) * list N.

Definition mident (s : text) : Prop :=
  exists c r, s = c :: r /\ letter c /\ Forall ident_char r.

(** One name, with white space around its parts. *)
Inductive qualified : text -> mname -> Prop :=
| q_plain w1 n w2 :
    Forall white w1 -> mident n -> Forall white w2 ->
    qualified (w1 ++ n ++ w2) (None, n)
| q_dotted w1 p w2 w3 n w4 :
    Forall white w1 -> mident p -> Forall white w2 ->
    Forall white w3 -> mident n -> Forall white w4 ->
    qualified (w1 ++ p ++ w2 ++ t "." ++ w3 ++ n ++ w4) (Some p, n).

(** The inside of a reference list: one or more names, separated by commas. *)
Inductive name_list : text -> list mname -> Prop :=
| nl_one s x : qualified s x -> name_list s [x]
| nl_more s x s' xs : qualified s x -> name_list s' xs -> name_list (s ++ t "," ++ s') (x :: xs).

Definition begins (p s : text) : Prop := exists r, s = p ++ r.

(** Markup: any text without double brackets, with reference lists in
    between. *)
Inductive markup : text -> list mname -> Prop :=
| mu_end : markup [] []
| mu_char c s xs :
    ~ begins (t "[[") (c :: s) -> ~ begins (t "]]") (c :: s) ->
    markup s xs -> markup (c :: s) xs
| mu_list b s xs ys :
    name_list b xs -> markup s ys ->
    markup (t "[[" ++ b ++ t "]]" ++ s) (xs ++ ys).
