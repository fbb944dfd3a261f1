(** Shared vocabulary of the model: results with the different ways a Python
    function can end, and text as a list of Unicode code points. *)
From Coq Require Export String Ascii.
From Coq Require Export ZArith NArith Bool Lia.
From Coq Require Export List.
Export ListNotations.
Open Scope list_scope.

(** Ways a Python call can end.  [Err] is a reported problem (the message
    handler raised [TRLC_Error], /repo/trlc/errors.py:114-134 and 275-276);
    [Crash] is an uncaught Python exception (AssertionError, IndexError,
    AttributeError, ...); [OutOfFuel] only exists because Gallina functions
    must terminate and is always shown to be unreachable. *)
Inductive res (E A : Type) : Type :=
| Ok (a : A)
| Err (e : E)
| Crash
| OutOfFuel.
Arguments Ok {E A} a.
Arguments Err {E A} e.
Arguments Crash {E A}.
Arguments OutOfFuel {E A}.

Definition bind {E A B} (r : res E A) (f : A -> res E B) : res E B :=
  match r with
  | Ok a => f a
  | Err e => Err e
  | Crash => Crash
  | OutOfFuel => OutOfFuel
  end.
Notation "'do' x <- r ; k" := (bind r (fun x => k))
  (at level 200, x pattern, r at level 100, k at level 200).

(** Text: Python [str] as a list of code points. *)
Notation char := N (only parsing).
Notation text := (list N) (only parsing).

(** Only used to write literals in the model and in examples. *)
Definition t (s : string) : text :=
  map N_of_ascii (list_ascii_of_string s).

Definition chr (a : ascii) : char := N_of_ascii a.

Fixpoint text_eqb (a b : text) : bool :=
  match a, b with
  | [], [] => true
  | x :: a', y :: b' => N.eqb x y && text_eqb a' b'
  | _, _ => false
  end.

Lemma text_eqb_eq a b : text_eqb a b = true <-> a = b.
Proof.
  revert b; induction a as [|x a IH]; intros [|y b]; simpl; split; intros H;
    try discriminate; auto.
  - apply andb_true_iff in H as [H1 H2]. apply N.eqb_eq in H1. apply IH in H2.
    subst; auto.
  - inversion H; subst. rewrite N.eqb_refl. simpl. apply IH; auto.
Qed.

Lemma text_eqb_refl a : text_eqb a a = true.
Proof. apply text_eqb_eq; auto. Qed.

Lemma text_eqb_neq a b : text_eqb a b = false <-> a <> b.
Proof.
  split.
  - intros H E. subst. rewrite text_eqb_refl in H. discriminate.
  - intros H. destruct (text_eqb a b) eqn:E; auto. apply text_eqb_eq in E. contradiction.
Qed.

Lemma text_eq_dec (a b : text) : {a = b} + {a <> b}.
Proof. apply list_eq_dec. apply N.eq_dec. Qed.

Arguments Z.add : simpl never.
Arguments Z.sub : simpl never.
Arguments Z.mul : simpl never.
Arguments Z.opp : simpl never.
Arguments Z.of_nat : simpl never.
Arguments Z.to_nat : simpl never.
Arguments Z.max : simpl never.
Arguments Z.min : simpl never.
