(** The meaning of the terms of Vcg.v, following SMT-LIB, and what it means that
    a goal is proved.

    Sorts are given by TRLC types.  Division by zero has no value here: SMT-LIB
    leaves it open. *)
From Coq Require Import Relations Qcanon Qabs.
From Verif Require Import Base Lexer MathModel MathProofs Ast Eval TypesProofs Typing Soundness EvalSpec EvalSpecProofs EvalCorrect SemEval Vcg.
Open Scope Z_scope.

(** Values of the solver.  The fields of a record have a value and, if the
    component is optional, a flag that tells whether they are valid. *)
Inductive sv : Type :=
| VBool (b : bool) | VInt (z : Z) | VReal (q : Qc) | VStr (s : text) | VEnum (e : nat) (n : text)
| VSeq (xs : list sv)
| VRec (fs : list (text * (sv * option bool))).

(** A model interprets the constants and the functions. *)
Record model := Model {
  m_val : text -> sv; m_ok : text -> bool;
  m_deref : uf -> Z -> sv;
  m_match : text -> text -> bool;            (* subject, pattern *)
  m_nth : ty -> list sv -> Z -> sv           (* elements that do not exist *)
}.
Definition upd (tm : nat -> sv) (n : nat) (v : sv) : nat -> sv := fun m => if Nat.eqb m n then v else tm m.

Definition lit_sv (k : lit) : sv :=
  match k with
  | LInt z => VInt z
  | LDec q => VReal (Q2Qc q)
  | LStr s _ => VStr s
  | LBool b => VBool b
  | LEnum e n => VEnum e n
  end.
Definition num_sv (v : sv) : option Q := match v with VInt z => Some (inject_Z z) | VReal q => Some (this q) | _ => None end.
Definition cmp_holds (op : cmp) (x y : Q) : Prop :=
  match op with
  | C_eq => x == y
  | C_lt => x < y
  | C_leq => x <= y
  | C_gt => y < x
  | C_geq => y <= x
  end%Q.
Definition int1 (op : num1) (x : Z) : Z := match op with N_neg => - x | N_abs => Z.abs x end.
Definition real1 (op : num1) (x : Q) : Q := match op with N_neg => Qopp x | N_abs => Qabs x end.
Definition int2 (op : num2) (x y : Z) : option Z :=
  match op with
  | N_add => Some (x + y)
  | N_sub => Some (x - y)
  | N_mul => Some (x * y)
  | N_div => if y =? 0 then None else Some (x / y)
  | N_rem => if y =? 0 then None else Some (Z.rem x y)
  end.
Definition real2 (op : num2) (x y : Q) : option Q :=
  match op with
  | N_add => Some (x + y)
  | N_sub => Some (x - y)
  | N_mul => Some (x * y)
  | N_div => if Qeq_bool y 0 then None else Some (x / y)
  | N_rem => None
  end%Q.
Definition strpred_holds (op : strpred) (x y : text) : Prop :=
  match op with
  | P_contains => exists p q, x = p ++ y ++ q           (* (str.contains x y) *)
  | P_prefixof => exists q, y = x ++ q                  (* (str.prefixof x y) *)
  | P_suffixof => exists p, y = p ++ x
  end.

Section DEN.
Variable M : model.
Fixpoint sden (tm : nat -> sv) (a : term) (v : sv) {struct a} : Prop :=
  match a with
  | T_val n => v = m_val M n
  | T_ok n => v = VBool (m_ok M n)
  | T_tmp n => v = tm n
  | T_lit k => v = lit_sv k
  | T_not a => exists x, sden tm a (VBool x) /\ v = VBool (negb x)
  | T_and a b => exists x y, sden tm a (VBool x) /\ sden tm b (VBool y) /\ v = VBool (x && y)
  | T_or a b => exists x y, sden tm a (VBool x) /\ sden tm b (VBool y) /\ v = VBool (x || y)
  | T_implies a b => exists x y, sden tm a (VBool x) /\ sden tm b (VBool y) /\ v = VBool (negb x || y)
  | T_xor a b => exists x y, sden tm a (VBool x) /\ sden tm b (VBool y) /\ v = VBool (xorb x y)
  | T_cmp C_eq a b => exists x y r, sden tm a x /\ sden tm b y /\ v = VBool r /\ (r = true <-> x = y)
  | T_cmp op a b => exists x y p q r, sden tm a x /\ sden tm b y /\ num_sv x = Some p /\ num_sv y = Some q /\
                      v = VBool r /\ (r = true <-> cmp_holds op p q)
  | T_num1 false op a => exists x, sden tm a (VInt x) /\ v = VInt (int1 op x)
  | T_num1 true op a => exists x, sden tm a (VReal x) /\ v = VReal (Q2Qc (real1 op (this x)))
  | T_num2 false op a b => exists x y z, sden tm a (VInt x) /\ sden tm b (VInt y) /\ int2 op x y = Some z /\ v = VInt z
  | T_num2 true op a b => exists x y z, sden tm a (VReal x) /\ sden tm b (VReal y) /\ real2 op (this x) (this y) = Some z /\ v = VReal (Q2Qc z)
  | T_strlen a => exists s, sden tm a (VStr s) /\ v = VInt (Z.of_nat (List.length s))
  | T_seqlen a => exists xs, sden tm a (VSeq xs) /\ v = VInt (Z.of_nat (List.length xs))
  | T_concat a b => exists x y, sden tm a (VStr x) /\ sden tm b (VStr y) /\ v = VStr (x ++ y)
  | T_strpred op a b => exists x y r, sden tm a (VStr x) /\ sden tm b (VStr y) /\ v = VBool r /\ (r = true <-> strpred_holds op x y)
  | T_matches a p => exists s, sden tm a (VStr s) /\ v = VBool (m_match M s p)
  | T_index el a i => exists xs z, sden tm a (VSeq xs) /\ sden tm i (VInt z) /\
      v = (if (0 <=? z) && (z <? Z.of_nat (List.length xs)) then nth (Z.to_nat z) xs (VBool false) else m_nth M el xs z)
  | T_member s x => exists xs y r, sden tm s (VSeq xs) /\ sden tm x y /\ v = VBool r /\ (r = true <-> In y xs)
  | T_to_real a => exists x, sden tm a (VInt x) /\ v = VReal (Q2Qc (inject_Z x))
  | T_to_int a => exists x n, sden tm a (VReal x) /\ nearest_away (this x) n /\ v = VInt n
  | T_ite c a b => exists x y z, sden tm c (VBool x) /\ sden tm a y /\ sden tm b z /\ v = if x then y else z
  | T_value a n => exists fs x k, sden tm a (VRec fs) /\ assoc n fs = Some (x, k) /\ v = x
  | T_valid a n => exists fs x k, sden tm a (VRec fs) /\ assoc n fs = Some (x, Some k) /\ v = VBool k
  | T_deref f a => exists z, sden tm a (VInt z) /\ v = m_deref M f z
  | T_quant un n body => exists b, v = VBool b /\
      (b = true <-> if un then forall i, sden (upd tm n (VInt i)) body (VBool true)
                    else exists i, sden (upd tm n (VInt i)) body (VBool true))
  end.

Definition stmt_holds (tm : nat -> sv) (d : stmt) : Prop :=
  match d with
  | D_fresh n => exists z, tm n = VInt z
  | D_def n a => sden tm a (tm n)
  | D_assert a => sden tm a (VBool true)
  end.
Definition path_holds (tm : nat -> sv) (p : path) : Prop := Forall (stmt_holds tm) p.

Lemma num_sv_fun x p q : num_sv x = Some p -> num_sv x = Some q -> p = q.
Proof. congruence. Qed.
(** Terms have at most one value. *)
Lemma sden_fun a : forall tm v w, sden tm a v -> sden tm a w -> v = w.
Proof.
  induction a; intros tm v w X Y; cbn in X, Y; try congruence;
    repeat match goal with H : context [match ?o with C_eq => _ | _ => _ end] |- _ => destruct o | H : context [if ?b then exists _, _ else _] |- _ => destruct b end;
    repeat match goal with H : exists _, _ |- _ => destruct H | H : _ /\ _ |- _ => destruct H end; subst;
    repeat match goal with
           | IH : forall tm v w, sden tm ?a v -> sden tm ?a w -> v = w, A : sden ?tm ?a ?x, B : sden ?tm ?a ?y |- _ =>
               first [constr_eq x y; clear B | let E := fresh in pose proof (IH _ _ _ A B) as E; first [injection E as E | idtac]; subst; clear B]
           end;
    repeat match goal with A : ?x = Some _, B : ?x = Some _ |- _ => rewrite A in B; injection B as B; subst end;
    try congruence; try reflexivity;
    try (f_equal; match goal with A : (?x = true <-> ?P), B : (?y = true <-> ?P) |- _ => exact (bool_iff _ _ _ _ A B (iff_refl P)) end).
  - f_equal. eapply nearest_away_unique; eauto.
Qed.
Lemma sden_bool a tm x y : sden tm a (VBool x) -> sden tm a (VBool y) -> x = y.
Proof. intros A B. pose proof (sden_fun _ _ _ _ A B). congruence. Qed.

(** ** Temporary constants *)
Fixpoint below (k : nat) (a : term) : Prop :=
  match a with
  | T_val _ | T_ok _ | T_lit _ => True
  | T_tmp n => (n < k)%nat
  | T_not a | T_num1 _ _ a | T_strlen a | T_seqlen a | T_matches a _ | T_to_real a | T_to_int a
  | T_value a _ | T_valid a _ | T_deref _ a => below k a
  | T_and a b | T_or a b | T_implies a b | T_xor a b | T_cmp _ a b | T_num2 _ _ a b | T_concat a b | T_strpred _ a b
  | T_index _ a b | T_member a b => below k a /\ below k b
  | T_ite a b c => below k a /\ below k b /\ below k c
  | T_quant _ n a => (n < k)%nat /\ below k a
  end.
Definition agree (k : nat) (tm tm' : nat -> sv) : Prop := forall n, (n < k)%nat -> tm n = tm' n.
Lemma agree_refl k tm : agree k tm tm.
Proof. intros n L. auto. Qed.
Lemma agree_sym k tm tm' : agree k tm tm' -> agree k tm' tm.
Proof. intros A n L. symmetry. auto. Qed.
Lemma agree_trans k tm tm' tm'' : agree k tm tm' -> agree k tm' tm'' -> agree k tm tm''.
Proof. intros A B n L. rewrite A; auto. Qed.
Lemma agree_le k k' tm tm' : (k <= k')%nat -> agree k' tm tm' -> agree k tm tm'.
Proof. intros L A n Ln. apply A. lia. Qed.
Lemma agree_upd k tm n v : (k <= n)%nat -> agree k tm (upd tm n v).
Proof. intros L m Lm. unfold upd. destruct (Nat.eqb_spec m n); [lia|auto]. Qed.
Lemma agree_both k tm tm' n v : agree k tm tm' -> agree k (upd tm n v) (upd tm' n v).
Proof. intros A m L. unfold upd. destruct (Nat.eqb m n); auto. Qed.
Lemma upd_same tm n v : upd tm n v n = v.
Proof. unfold upd. rewrite Nat.eqb_refl. auto. Qed.
Lemma below_le k k' a : (k <= k')%nat -> below k a -> below k' a.
Proof. intros L. induction a; cbn; intuition lia. Qed.
Lemma sden_agree a : forall k tm tm' v, below k a -> agree k tm tm' -> sden tm a v -> sden tm' a v.
Proof.
  induction a; intros k0 tm tm' v B A X; cbn in B, X |- *; auto;
    try (repeat match goal with H : context [match ?o with C_eq => _ | _ => _ end] |- _ => destruct o | H : context [if ?b then exists _, _ else _] |- _ => destruct b end;
         repeat match goal with H : exists _, _ |- _ => destruct H | H : _ /\ _ |- _ => destruct H end;
         repeat match goal with |- exists _, _ => eexists end; repeat match goal with |- _ /\ _ => split end; eauto; fail).
  - rewrite <- A; auto.
  - destruct X as (r & Ev & X). exists r. split; auto. rewrite X. destruct B as [Ln Bb]. destruct universal.
    + split; intros H i; eapply IHa; eauto using agree_both, agree_sym.
    + split; intros [i H]; exists i; eapply IHa; eauto using agree_both, agree_sym.
Qed.
Definition stmt_below (k : nat) (d : stmt) : Prop :=
  match d with D_fresh n => (n < k)%nat | D_def n a => (n < k)%nat /\ below k a | D_assert a => below k a end.
Definition path_below (k : nat) (p : path) : Prop := Forall (stmt_below k) p.
Lemma stmt_below_le k k' d : (k <= k')%nat -> stmt_below k d -> stmt_below k' d.
Proof. intros L. destruct d; cbn; intuition eauto using below_le; lia. Qed.
Lemma path_below_le k k' p : (k <= k')%nat -> path_below k p -> path_below k' p.
Proof. intros L. apply Forall_impl. eauto using stmt_below_le. Qed.
Lemma path_agree k tm tm' p : path_below k p -> agree k tm tm' -> path_holds tm p -> path_holds tm' p.
Proof.
  intros B A H. unfold path_holds, path_below in *. rewrite Forall_forall in *. intros d I. specialize (B d I). specialize (H d I).
  destruct d; cbn in *; [rewrite <- A by auto; auto|destruct B; rewrite <- A by auto; eapply sden_agree; eauto|eapply sden_agree; eauto].
Qed.
End DEN.

(** ** Sorts *)
Section SORTS.
Variable G : types.

(** [of_sort x a v]: [v] belongs to the sort made from [a]; with [x], enumeration
    values are declared literals. *)
Inductive of_sort (x : bool) : ty -> sv -> Prop :=
| so_int z : of_sort x TInt (VInt z)
| so_real q : of_sort x TDec (VReal q)
| so_bool b : of_sort x TBool (VBool b)
| so_str s : of_sort x TStr (VStr s)
| so_markup s : of_sort x TMarkup (VStr s)
| so_enum e n : (x = true -> exists en, nth_error (enums G) e = Some en /\ In n (en_lits en)) -> of_sort x (TEnum e) (VEnum e n)
| so_tup u ut fs : tup G u = Some ut ->
    Forall2 (fun c f => fst f = c_name c /\ of_sort x (c_typ c) (fst (snd f)) /\ (c_opt c = true <-> snd (snd f) <> None)) (u_comps ut) fs ->
    of_sort x (TTup u) (VRec fs)
| so_rec r z : of_sort x (TRec r) (VInt z)
| so_union i ms z : of_sort x (TUnion i ms) (VInt z)
| so_arr i lo hi el xs : Forall (of_sort x el) xs -> of_sort x (TArr i lo hi el) (VSeq xs).

(** A record of the sort used for references has these fields. *)
Definition has_field (n : text) (a : ty) (opt : bool) (v : sv) : Prop :=
  exists fs w k, v = VRec fs /\ assoc n fs = Some (w, k) /\ of_sort true a w /\ (opt = true <-> k <> None).
Definition usable (a : ty) : Prop := exists w, of_sort true a w.
Record well_sorted (cs : list component) (M : model) : Prop := {
  ws_val : forall c, In c cs -> of_sort true (c_typ c) (m_val M (c_name c));
  ws_rec : forall r z c, In c (all_components G r) -> usable (c_typ c) -> has_field (c_name c) (c_typ c) (c_opt c) (m_deref M (F_record r) z);
  ws_union : forall ms z k info a, assoc k (field_map G ms) = Some info -> fi_typ info = Some a -> usable a ->
    has_field k a (has_valid info) (m_deref M (F_union ms) z);
  ws_nth : forall el xs z, usable el -> of_sort true el (m_nth M el xs z)
}.

(** ** Goals *)

(** The solver finds a goal unsatisfiable if no model makes the path true and
    the goal false. *)
Definition vc_valid (cs : list component) (v : vc) : Prop :=
  forall M tm, well_sorted cs M -> path_holds M tm (vc_path v) -> ~ sden M tm (vc_goal v) (VBool false).
End SORTS.
