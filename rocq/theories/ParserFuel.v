(** The parser makes progress: its loops and recursive calls consume tokens,
    so the bounds in the model are never reached. *)
From Verif Require Import Base Lexer SymTab Ast Eval ParserBase ParserExpr ParserProofs EvalFuel.
From Coq Require Import ZifyBool ZifyNat ZifyN.
Open Scope nat_scope.

(** All tokens to come satisfy [stock]. *)
Definition stocked (stock : token -> Prop) (p : pos) : Prop :=
  (forall tk, nt p = Some tk -> stock tk) /\ (forall tk, In (ITok tk) (rest p) -> stock tk).

(** [spends b k m]: with at most [b] tokens to come, [m] does not run out of
    fuel, never gives back tokens, and consumes [k] of them if it succeeds. *)
Definition spends_ {A} (stock : token -> Prop) (b k : nat) (m : P A) : Prop :=
  forall s, stocked stock (at_ s) -> (rem (at_ s) <= b)%nat ->
    match m s with
    | POk _ s' => stocked stock (at_ s') /\ (rem (at_ s') + k <= rem (at_ s))%nat
    | PErr _ s' => stocked stock (at_ s') /\ (rem (at_ s') <= rem (at_ s))%nat
    | PCrash => True
    | PFuel => False
    end.

Section STOCK.
Variable stock : token -> Prop.
Notation spends := (spends_ stock).
Notation stocked := (stocked stock).

Lemma spends_weaken {A} b k b' k' (m : P A) : spends b k m -> (b' <= b)%nat -> (k' <= k)%nat -> spends b' k' m.
Proof. intros H L1 L2 s I L. specialize (H s I ltac:(lia)). destruct (m s); auto. destruct H. split; auto. lia. Qed.
Lemma spends_bind {A B} b k1 k (m : P A) (f : A -> P B) :
  spends b k1 m -> (forall a, spends (b - k1) (k - k1) (f a)) -> spends b k (pbind m f).
Proof.
  intros H1 H2 s I L. specialize (H1 s I L). unfold pbind. destruct (m s) as [a s1| | |]; auto.
  destruct H1 as [I1 L1]. specialize (H2 a s1 I1 ltac:(lia)). destruct (f a s1); auto; destruct H2; split; auto; lia.
Qed.
Lemma spends_ret {A} b (a : A) : spends b 0 (pret a).
Proof. intros s I L. simpl. split; auto. lia. Qed.
Lemma spends_error {A} b k e : spends b k (perror e : P A).
Proof. intros s I L. simpl. split; auto. Qed.
Lemma spends_crash {A} b k : spends b k (pcrash : P A).
Proof. intros s I L. simpl. auto. Qed.
Lemma spends_note b n : spends b 0 (pnote n).
Proof. intros s I L. simpl. split; auto. lia. Qed.
Lemma spends_cond {A} b k c (m1 m2 : P A) : spends b k m1 -> spends b k m2 -> spends b k (pcond c m1 m2).
Proof. intros H1 H2 s I L. unfold pcond. destruct (c s); [apply (H1 s I L)|apply (H2 s I L)]. Qed.
Lemma spends_lift {A} b (r : res perr A) : r <> OutOfFuel -> spends b 0 (lift r).
Proof. intros H s I L. destruct r; simpl; auto; split; auto; lia. Qed.

(** A loop that goes on only if some token is next. *)
Lemma spends_peek {A} b k f (m1 m2 : P A) : (forall b', b = Datatypes.S b' -> spends b k m1) -> spends b k m2 ->
  spends b k (pcond (next_is f) m1 m2).
Proof.
  intros H1 H2 s I L. unfold pcond. destruct (next_is f s) eqn:E; [|apply H2; auto].
  destruct b as [|b]; [|apply (H1 b); auto].
  unfold next_is in E. unfold rem in L. destruct (nt (at_ s)); [simpl in L; lia|discriminate].
Qed.

Lemma fetch_fail prev l e n l' : fetch prev l = Failed e (n, l') ->
  (List.length l' < List.length l)%nat /\ (opt1 n = opt1 prev \/ S (List.length l') < List.length l)%nat.
Proof.
  revert prev. induction l as [|[tk|e'|] l IH]; simpl; intros prev H; try discriminate.
  - destruct (kind_eq_dec (tk_kind tk) COMMENT); [|discriminate]. apply IH in H as [H1 H2]. lia.
  - inversion H; subst. split; [lia|auto].
Qed.
Lemma fetch_fail_le prev l e n l' : fetch prev l = Failed e (n, l') ->
  (opt1 n + List.length l' < opt1 prev + List.length l)%nat.
Proof.
  intros H. apply fetch_fail in H as [H1 [H2|H2]]; [lia|]. destruct n; simpl; lia.
Qed.
Lemma fetch_stocked prev l c :
  (forall tk, prev = Some tk -> stock tk) -> (forall tk, In (ITok tk) l -> stock tk) ->
  match fetch prev l with
  | Got (n, l') | Failed _ (n, l') => stocked (Pos c n l')
  | Broke => True
  end.
Proof.
  revert prev. induction l as [|[tk|e|] l IH]; cbn [fetch]; intros prev Hp Hl; auto.
  - split; cbn; [discriminate | contradiction].
  - destruct (kind_eq_dec (tk_kind tk) COMMENT).
    + apply IH; [intros x E; inversion E; subst|intros]; apply Hl; cbn; auto.
    + split; cbn; [intros x E; inversion E; subst|intros]; apply Hl; cbn; auto.
  - split; cbn; auto. intros. apply Hl. cbn. auto.
Qed.
Lemma advance_spends b : spends b 0 p_advance.
Proof.
  intros s I L. assert (F := fetch_stocked (nt (at_ s)) (rest (at_ s)) (nt (at_ s)) (proj1 I) (proj2 I)).
  unfold p_advance, rem in *. destruct (fetch _ _) as [[n l]|e [n l]|] eqn:E; auto; simpl.
  - split; auto. apply fetch_length in E. lia.
  - split; auto. apply fetch_fail_le in E. lia.
Qed.

Section FILE.
Variable file : Z.
Lemma take_stocked b f e s : stocked (at_ s) -> (rem (at_ s) <= b)%nat ->
  match p_take file f e s with
  | POk tk s' => stock tk /\ f tk = true /\ stocked (at_ s') /\ (rem (at_ s') + 1 <= rem (at_ s))%nat
  | PErr _ s' => stocked (at_ s') /\ (rem (at_ s') <= rem (at_ s))%nat
  | PCrash => True
  | PFuel => False
  end.
Proof.
  intros I L. unfold p_take. destruct (nt (at_ s)) as [tk|] eqn:E; [|auto]. destruct (f tk) eqn:Ft; [|auto].
  assert (F := fetch_stocked (nt (at_ s)) (rest (at_ s)) (nt (at_ s)) (proj1 I) (proj2 I)).
  unfold pbind, p_advance, rem. rewrite E in *. destruct (fetch _ _) as [[n l]|x [n l]|] eqn:Fe; auto; simpl.
  - split; [apply (proj1 I); auto|]. split; auto. split; auto. apply fetch_length in Fe. lia.
  - split; auto. apply fetch_fail_le in Fe. simpl in Fe. lia.
Qed.
Lemma take_spends b f e : spends b 1 (p_take file f e).
Proof. intros s I L. assert (H := take_stocked b f e s I L). destruct (p_take file f e s); auto. tauto. Qed.
Lemma take_bind_in {B} b k f e (g : token -> P B) :
  (forall a b', b = Datatypes.S b' -> stock a -> f a = true -> spends b' (k - 1) (g a)) -> spends b k (pbind (p_take file f e) g).
Proof.
  intros H s I L. destruct b as [|b].
  - unfold pbind, p_take. unfold rem in *. destruct (nt (at_ s)) eqn:E; simpl in *; [lia|]. split; auto. rewrite E. simpl. lia.
  - assert (T := take_stocked (Datatypes.S b) f e s I L). unfold pbind. destruct (p_take file f e s) as [a s1| | |]; auto.
    destruct T as (T1 & T2 & T3 & T4). specialize (H a b eq_refl T1 T2 s1 T3 ltac:(lia)).
    destruct (g a s1); auto; destruct H; split; auto; lia.
Qed.
Lemma take_bind {B} b k f e (g : token -> P B) :
  (forall a b', b = Datatypes.S b' -> spends b' (k - 1) (g a)) -> spends b k (pbind (p_take file f e) g).
Proof. intros H. apply take_bind_in. auto. Qed.
Lemma match_bind {B} b k w (g : token -> P B) :
  (forall a b', b = Datatypes.S b' -> spends b' (k - 1) (g a)) -> spends b k (pbind (p_match file w) g).
Proof. apply take_bind. Qed.
Lemma match_kw_bind {B} b k w (g : token -> P B) :
  (forall a b', b = Datatypes.S b' -> spends b' (k - 1) (g a)) -> spends b k (pbind (p_match_kw file w) g).
Proof. apply take_bind. Qed.
Lemma match_spends b k : spends b 1 (p_match file k). Proof. apply take_spends. Qed.
Lemma match_kw_spends b k : spends b 1 (p_match_kw file k). Proof. apply take_spends. Qed.
End FILE.
End STOCK.

Ltac sp_atom :=
  first
    [ apply match_spends | apply match_kw_spends | apply spends_ret | apply spends_note
    | apply spends_lift; solve [auto with fuel] ].
(** Up to arithmetic. *)
Ltac sp_leaf :=
  first [ apply spends_error | apply spends_crash
        | match goal with |- spends_ _ ?b _ _ => eapply (spends_weaken _ b _ b _); [sp_atom | lia | lia] end ].
Ltac sp :=
  repeat first
    [ progress intros
    | sp_leaf
    | match goal with
      | |- spends_ _ _ _ (pbind (p_match _ _) _) => apply match_bind
      | |- spends_ _ _ _ (pbind (p_match_kw _ _) _) => apply match_kw_bind
      | |- spends_ _ _ _ (pbind (lift _) _) => eapply spends_bind; [sp_atom|]
      | |- spends_ _ _ _ (pbind (pnote _) _) => eapply spends_bind; [sp_atom|]
      | |- spends_ _ _ _ (pcond _ _ _) => apply spends_cond
      | |- spends_ _ _ _ (let '(_, _) := ?x in _) => destruct x
      | |- spends_ _ _ _ (match ?x with [] => _ | _ => _ end) => destruct x
      | |- spends_ _ _ _ (with_op ?x _) => destruct x; cbn [with_op]
      | |- spends_ _ _ _ (match ?x with VInt _ => _ | _ => _ end) => destruct x
      end ].

Section EXPR.
Variable stock : token -> Prop.
Notation spends := (spends_ stock).
Variable file : Z.
Variable lint : bool.
Variable G : types.
Variable W : world.
Variable compiles : text -> bool.
Variable N : names.

Hint Resolve hidden_fuel : fuel.
Lemma qualified_spends b sc tk r : spends b 0 (qualified_rest file N sc tk r).
Proof.
  unfold qualified_rest. sp. destruct a as [| |p| | |]; sp. destruct (is_visible N p); sp.
Qed.

Section STEP.
Variable n b : nat.
Variable pe : nscope -> P expr.
Hypothesis bn : (b < n)%nat.
(** Recursive calls come after a token was consumed. *)
Hypothesis pe_spends : forall c sc, (c < b)%nat -> spends c 1 (pe sc).

Ltac nest k := eapply spends_bind with (k1 := k%nat).

Lemma selectors_spends m c sc e : (c <= b)%nat -> (c < m)%nat -> spends c 0 (selectors file lint G pe m sc e).
Proof.
  revert c e. induction m as [|m IH]; intros c e L1 L; [lia|]. simpl. sp.
  - nest 0; [sp|]. sp. match goal with |- spends_ _ ?c _ _ => apply (spends_weaken _ c 0); [apply IH| |]; lia end.
  - nest 1; [apply pe_spends; lia|]. sp.
    match goal with |- spends_ _ ?c _ _ => apply (spends_weaken _ c 0); [apply IH| |]; lia end.
Qed.
Lemma arguments_spends m c sc : (c < b)%nat -> (c < m)%nat -> spends c 0 (arguments file pe m sc).
Proof.
  revert c. induction m as [|m IH]; intros c L1 L; [lia|]. simpl. sp.
  nest 1; [apply pe_spends; lia|]. sp. nest 0; [apply IH; lia|]. sp.
Qed.
Lemma builtin_spends c sc f tk : (c <= b)%nat -> spends c 2 (parse_builtin file G W compiles n pe sc f tk).
Proof.
  intros L. unfold parse_builtin. sp. nest 0; [apply arguments_spends; lia|]. sp.
Qed.

Lemma name_spends c sc : (c <= b)%nat -> spends c 1 (parse_name file lint G W compiles N n pe sc).
Proof.
  intros L. unfold parse_name. sp. nest 0.
  - sp. nest 0; [apply qualified_spends|]. sp.
  - sp. destruct h; sp.
    + match goal with |- spends_ _ ?c _ _ => apply (spends_weaken _ c 2); [apply builtin_spends| |]; lia end.
    + match goal with |- spends_ _ ?c _ _ => apply (spends_weaken _ c 0); [apply selectors_spends| |]; lia end.
Qed.
Lemma quantified_spends c sc : (c <= b)%nat -> spends c 2 (parse_quantified_expression file pe sc).
Proof.
  intros L. unfold parse_quantified_expression. nest 1; [sp|]. sp. nest 1; [apply pe_spends; lia|]. sp.
Qed.
Lemma elsifs_spends m c sc a : (c < b)%nat -> (c < m)%nat -> spends c 0 (elsifs file pe m sc a).
Proof.
  revert c. induction m as [|m IH]; intros c L1 L; [lia|]. simpl. sp.
  nest 1; [apply pe_spends; lia|]. sp. nest 1; [apply pe_spends; lia|]. sp. nest 0; [apply IH; lia|]. sp.
Qed.
Lemma conditional_spends c sc : (c <= b)%nat -> spends c 2 (parse_conditional_expression file n pe sc).
Proof.
  intros L. unfold parse_conditional_expression. sp. nest 1; [apply pe_spends; lia|]. sp.
  nest 1; [apply pe_spends; lia|]. sp. nest 0; [apply elsifs_spends; lia|]. sp. nest 1; [apply pe_spends; lia|]. sp.
Qed.
Lemma primary_spends c sc : (c <= b)%nat -> spends c 1 (parse_primary file lint G W compiles N n pe sc).
Proof.
  intros L. unfold parse_primary. sp; [|apply name_spends; auto].
  nest 1; [|sp]. sp.
  - match goal with |- spends_ _ ?c _ _ => apply (spends_weaken _ c 2); [apply quantified_spends| |]; lia end.
  - match goal with |- spends_ _ ?c _ _ => apply (spends_weaken _ c 2); [apply conditional_spends| |]; lia end.
  - apply pe_spends; lia.
Qed.
Lemma factor_spends c sc : (c <= b)%nat -> spends c 1 (parse_factor file lint G W compiles N n pe sc).
Proof.
  intros L. unfold parse_factor. sp; nest 1; try (apply primary_spends; lia); sp.
  nest 1; [apply primary_spends; lia|]. sp.
Qed.
Lemma term_loop_spends m c sc e : (c <= b)%nat -> (c < m)%nat ->
  spends c 0 (term_loop file lint G W compiles N n pe m sc e).
Proof.
  revert c e. induction m as [|m IH]; intros c e L1 L; [lia|]. simpl. sp.
  nest 1; [apply factor_spends; lia|]. sp.
  match goal with |- spends_ _ ?c _ _ => apply (spends_weaken _ c 0); [apply IH| |]; lia end.
Qed.
Lemma term_spends c sc : (c <= b)%nat -> spends c 1 (parse_term file lint G W compiles N n pe sc).
Proof.
  intros L. unfold parse_term. nest 1; [apply factor_spends; lia|]. sp. apply term_loop_spends; lia.
Qed.
Lemma sum_loop_spends m c sc a e : (c <= b)%nat -> (c < m)%nat ->
  spends c 0 (sum_loop file lint G W compiles N n pe m sc a e).
Proof.
  revert c e. induction m as [|m IH]; intros c e L1 L; [lia|]. simpl. sp.
  nest 1; [apply term_spends; lia|]. sp.
  match goal with |- spends_ _ ?c _ _ => apply (spends_weaken _ c 0); [apply IH| |]; lia end.
Qed.
Lemma spends_fun {A} c k (m : ps -> P A) : (forall s, spends c k (m s)) -> spends c k (fun s => m s s).
Proof. intros H s. apply H. Qed.
Lemma simple_spends c sc : (c <= b)%nat -> spends c 1 (parse_simple_expression file lint G W compiles N n pe sc).
Proof.
  intros L. unfold parse_simple_expression. nest 1; [|sp; apply sum_loop_spends; lia].
  sp; [|apply term_spends; lia]. apply (spends_fun _ _ (fun s => _)). sp.
  nest 1; [apply term_spends; lia|]. sp. nest 0; [|sp].
  match goal with |- context [if ?x then _ else _] => destruct x end; sp.
Qed.
Lemma relation_spends c sc : (c <= b)%nat -> spends c 1 (parse_relation file lint G W compiles N n pe sc).
Proof.
  intros L. unfold parse_relation. nest 1; [apply simple_spends; lia|]. sp.
  - nest 1; [apply simple_spends; lia|]. sp.
  - nest 0; [sp|]. sp. nest 1; [apply simple_spends; lia|]. sp. nest 0; [|sp]. sp.
    nest 1; [apply simple_spends; lia|]. sp.
Qed.
Lemma logic_loop_spends m c w op sc e : (c <= b)%nat -> (c < m)%nat ->
  spends c 0 (logic_loop file lint G W compiles N n pe m w op sc e).
Proof.
  revert c e. induction m as [|m IH]; intros c e L1 L; [lia|]. simpl. sp.
  nest 1; [apply relation_spends; lia|]. sp.
  match goal with |- spends_ _ ?c _ _ => apply (spends_weaken _ c 0); [apply IH| |]; lia end.
Qed.
Lemma logic_once_spends c w op sc e : (c <= b)%nat -> spends c 0 (logic_once file lint G W compiles N n pe w op sc e).
Proof.
  intros L. unfold logic_once. sp. nest 1; [apply relation_spends; lia|]. sp.
Qed.
Lemma step_spends c sc : (c <= b)%nat -> spends c 1 (expression_step file lint G W compiles N n pe sc).
Proof.
  intros L. unfold expression_step. nest 1; [apply relation_spends; lia|]. sp;
    try (apply logic_loop_spends; lia); apply logic_once_spends; lia.
Qed.
End STEP.

Theorem expression_spends n b sc : (b < n)%nat -> spends b 1 (parse_expression file lint G W compiles N n sc).
Proof.
  revert b sc. induction n as [|n IH]; intros b sc L; [lia|].
  simpl. apply (step_spends (Datatypes.S n) b); auto. intros c sc' Lc. apply IH. lia.
Qed.
End EXPR.
