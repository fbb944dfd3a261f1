(** Message handler histories. *)
From Coq Require Import ZifyBool ZifyN ZifyNat.
From Verif Require Import Base PyText LexSpec LexerProps Messages.
Open Scope Z_scope.

(** ** Numbers are printed in decimal *)

Lemma show_digits_spec fuel n acc k v :
  0 <= n -> n < 2 ^ Z.of_nat fuel -> positional 10 acc k v ->
  exists k', positional 10 (show_digits fuel n acc) k' (n * 10 ^ Z.of_nat k + v) .
Proof.
  revert n acc k v. induction fuel as [|f IH]; intros n acc k v N L P.
  - cbn in L. assert (n = 0) by lia. subst. exists k. exact P.
  - cbn [show_digits].
    assert (M : 0 <= n mod 10 < 10) by (apply Z.mod_pos_bound; lia).
    assert (P' : positional 10 (Z.to_N (48 + n mod 10) :: acc) (S k) (n mod 10 * 10 ^ Z.of_nat k + v)).
    { apply pos_digit; auto; [|lia]. apply dv_09. lia. }
    pose proof (Z.div_mod n 10 ltac:(lia)) as DM.
    destruct (Z.eqb_spec (n / 10) 0).
    + exists (S k). replace n with (n mod 10) at 2 by lia. exact P'.
    + assert (L' : n / 10 < 2 ^ Z.of_nat f).
      { replace (Z.of_nat (S f)) with (1 + Z.of_nat f) in L by lia. rewrite Z.pow_add_r in L by lia.
        apply Z.div_lt_upper_bound; lia. }
      assert (N' : 0 <= n / 10) by (apply Z.div_pos; lia).
      destruct (IH _ _ _ _ N' L' P') as (k' & Q).
      exists k'. replace (n * 10 ^ Z.of_nat k + v) with (n / 10 * 10 ^ Z.of_nat (S k) + (n mod 10 * 10 ^ Z.of_nat k + v)); auto.
      replace (Z.of_nat (S k)) with (1 + Z.of_nat k) by lia. rewrite Z.pow_add_r by lia. rewrite DM at 3. lia.
Qed.

Lemma show_positional n : 0 <= n -> exists k, positional 10 (show n) k n.
Proof.
  intros N. destruct (show_digits_spec (S (Z.to_nat (Z.log2 n))) n [] 0 0 N) as (k & P).
  - replace (Z.of_nat (S (Z.to_nat (Z.log2 n)))) with (Z.succ (Z.log2 n)).
    + destruct (Z.eq_dec n 0); [subst; cbn; lia|]. apply Z.log2_spec. lia.
    + pose proof (Z.log2_nonneg n). lia.
  - constructor.
  - exists k. replace (n * 10 ^ Z.of_nat 0 + 0) with n in P by (cbn; lia). exact P.
Qed.

Lemma show_digits_digits fuel n acc : 0 <= n -> Forall digit acc -> Forall digit (show_digits fuel n acc).
Proof.
  revert n acc. induction fuel as [|f IH]; intros n acc N F; auto. cbn [show_digits].
  assert (M : 0 <= n mod 10 < 10) by (apply Z.mod_pos_bound; lia).
  assert (F' : Forall digit (Z.to_N (48 + n mod 10) :: acc)).
  { constructor; auto. unfold digit. lia. }
  destruct (n / 10 =? 0); auto. apply IH; auto. apply Z.div_pos; lia.
Qed.

(** ** Specification of histories *)

Definition is_error (c : call) : bool :=
  match c with Lex_error _ _ | Error _ _ _ _ _ | Ice_loc _ _ => true | _ => false end.
Definition is_warning (c : call) : bool :=
  match c with Warning _ _ _ _ | Check _ _ _ _ => true | _ => false end.
Definition leaves (c : call) : bool := match c with Ice_loc _ _ => true | _ => false end.

(** The kind under which a message is shown. *)
Definition message_kind (c : call) : option mkind :=
  match c with
  | Suppress _ => None
  | Lex_error _ _ | Ice_loc _ _ => Some SYS_ERROR
  | Error _ _ _ _ user => Some (if user then USER_ERROR else SYS_ERROR)
  | Warning _ _ _ user => Some (if user then USER_WARNING else SYS_WARNING)
  | Check _ _ _ _ => Some SYS_CHECK
  end.

(** What is printed for a message if it is not suppressed. *)
Definition printed (cfg : mh_config) (c : call) : list text :=
  match c with
  | Suppress _ => []
  | Lex_error l m => emit_lines cfg l SYS_ERROR m None None
  | Ice_loc l m => emit_lines cfg l SYS_ERROR m (Some bugs_url_note) None
  | Error l m e _ user => emit_lines cfg l (if user then USER_ERROR else SYS_ERROR) m e None
  | Warning l m e user => emit_lines cfg l (if user then USER_WARNING else SYS_WARNING) m e None
  | Check l m c e => emit_lines cfg l SYS_CHECK m e (Some c)
  end.

(** [history before c after] ...: the message [c] is hidden if its kind was
    suppressed earlier. *)
Definition hidden (before : list call) (c : call) : Prop :=
  exists k, message_kind c = Some k /\ In (Suppress k) before.

(** [tally before cs n shown]: of the calls [cs], made after [before], [n] are
    hidden and [shown] is printed. *)
Inductive tally (cfg : mh_config) : list call -> list call -> Z -> list text -> Prop :=
| ta_nil before : tally cfg before [] 0 []
| ta_hidden before c cs n shown :
    hidden before c -> tally cfg (before ++ [c]) cs n shown -> tally cfg before (c :: cs) (1 + n) shown
| ta_shown before c cs n shown :
    ~ hidden before c -> tally cfg (before ++ [c]) cs n shown ->
    tally cfg before (c :: cs) n (printed cfg c ++ shown).

Definition fatal_call (c : call) : bool :=
  match c with Lex_error _ _ => true | Error _ _ _ f _ => f | _ => false end.

Definition expected_effect (c : call) (e : effect) : Prop :=
  match c with
  | Lex_error l m => e = Raises l SYS_ERROR m
  | Error l m _ true user => e = Raises l (if user then USER_ERROR else SYS_ERROR) m
  | Ice_loc _ _ => e = Exits
  | _ => e = Returns
  end.

Definition count (f : call -> bool) (cs : list call) : Z := Z.of_nat (length (filter f cs)).

Lemma mkind_eqb_eq a b : mkind_eqb a b = true <-> a = b.
Proof. destruct a, b; cbn; split; auto; discriminate. Qed.

Lemma existsb_kind k l : existsb (mkind_eqb k) l = true <-> In k l.
Proof.
  rewrite existsb_exists. split.
  - intros (x & I & E). apply mkind_eqb_eq in E. subst; auto.
  - intros I. exists k. split; auto. apply mkind_eqb_eq; auto.
Qed.

Definition agrees (before : list call) (s : mh) : Prop :=
  forall k, In k (suppress_kind s) <-> In (Suppress k) before.

Lemma call_step_spec cfg s before c s' e :
  agrees before s -> call_step cfg s c = (s', e) ->
  agrees (before ++ [c]) s' /\
  errors s' = errors s + (if is_error c then 1 else 0) /\
  warnings s' = warnings s + (if is_warning c then 1 else 0) /\
  expected_effect c e /\
  ((hidden before c /\ suppressed s' = suppressed s + 1 /\ out s' = out s) \/
   (~ hidden before c /\ suppressed s' = suppressed s /\ out s' = out s ++ printed cfg c)).
Proof.
  intros A E.
  assert (Agr : forall c, (forall k, c <> Suppress k) -> forall s1, suppress_kind s1 = suppress_kind s -> agrees (before ++ [c]) s1).
  { intros c0 N s1 E1 k. rewrite E1, (A k), in_app_iff. cbn. split; auto. intros [H|[H|[]]]; auto. elim (N k); auto. }
  assert (Hid : forall c k, message_kind c = Some k -> (existsb (mkind_eqb k) (suppress_kind s) = true <-> hidden before c)).
  { intros c0 k K. rewrite existsb_kind, (A k). unfold hidden. split; [eauto|]. intros (k' & K' & I). congruence. }
  destruct c as [k|l m|l m ex fatal user|l m ex user|l m ca ex|l m]; cbn in E; unfold emit in E; cbn in E.
  - injection E as <- <-. cbn. split.
    { intros k'. rewrite in_app_iff. cbn. destruct (existsb (mkind_eqb k) (suppress_kind s)) eqn:X.
      - rewrite (A k'). split; auto. intros [H|[H|[]]]; auto. injection H as <-. apply A. apply existsb_kind; auto.
      - cbn. rewrite (A k'). split; intros [H|H]; auto. + subst; auto. + destruct H as [H|[]]. left. congruence. }
    rewrite !Z.add_0_r, app_nil_r. repeat split; auto. right. repeat split; auto.
    intros (k' & K' & _). discriminate.
  - specialize (Hid (Lex_error l m) SYS_ERROR eq_refl). specialize (Agr (Lex_error l m) ltac:(discriminate)).
    destruct (existsb _ _) in *; injection E as <- <-; cbn; rewrite ?Z.add_0_r; repeat split; auto; try (apply Agr; auto).
    + left. repeat split; auto. apply Hid; auto.
    + right. repeat split; auto. intros H. apply Hid in H. discriminate.
  - specialize (Hid (Error l m ex fatal user) _ eq_refl). specialize (Agr (Error l m ex fatal user) ltac:(discriminate)).
    destruct (existsb _ _) in *; injection E as <- <-; cbn; rewrite ?Z.add_0_r; repeat split; auto; try (apply Agr; auto); try (destruct fatal; reflexivity).
    + left. repeat split; auto. apply Hid; auto.
    + right. repeat split; auto. intros H. apply Hid in H. discriminate.
  - specialize (Hid (Warning l m ex user) _ eq_refl). specialize (Agr (Warning l m ex user) ltac:(discriminate)).
    destruct (existsb _ _) in *; injection E as <- <-; cbn; rewrite ?Z.add_0_r; repeat split; auto; try (apply Agr; auto).
    + left. repeat split; auto. apply Hid; auto.
    + right. repeat split; auto. intros H. apply Hid in H. discriminate.
  - specialize (Hid (Check l m ca ex) _ eq_refl). specialize (Agr (Check l m ca ex) ltac:(discriminate)).
    destruct (existsb _ _) in *; injection E as <- <-; cbn; rewrite ?Z.add_0_r; repeat split; auto; try (apply Agr; auto).
    + left. repeat split; auto. apply Hid; auto.
    + right. repeat split; auto. intros H. apply Hid in H. discriminate.
  - specialize (Hid (Ice_loc l m) _ eq_refl). specialize (Agr (Ice_loc l m) ltac:(discriminate)).
    destruct (existsb _ _) in *; injection E as <- <-; cbn; rewrite ?Z.add_0_r; repeat split; auto; try (apply Agr; auto).
    + left. repeat split; auto. apply Hid; auto.
    + right. repeat split; auto. intros H. apply Hid in H. discriminate.
Qed.

Lemma expected_exits c e : expected_effect c e -> e = Exits <-> leaves c = true.
Proof.
  destruct c as [k|l m|l m ex [|] user|l m ex user|l m ca ex|l m]; cbn; intros ->; split; congruence.
Qed.

(** The calls actually made: everything up to the first one that leaves. *)
Fixpoint made (cs : list call) : list call :=
  match cs with
  | [] => []
  | c :: cs' => if leaves c then [c] else c :: made cs'
  end.

Lemma run_spec cfg cs : forall before s s' es,
  agrees before s -> run cfg s cs = (s', es) ->
  exists n shown,
    tally cfg before (made cs) n shown /\
    errors s' = errors s + count is_error (made cs) /\
    warnings s' = warnings s + count is_warning (made cs) /\
    suppressed s' = suppressed s + n /\
    out s' = out s ++ shown /\
    Forall2 expected_effect (made cs) es.
Proof.
  induction cs as [|c cs IH]; intros before s s' es A E; cbn [run made] in *.
  - injection E as <- <-. exists 0, []. cbn. unfold count. cbn. rewrite app_nil_r. repeat split; auto; try lia; constructor.
  - destruct (call_step cfg s c) as [s1 e] eqn:CS.
    destruct (call_step_spec _ _ _ _ _ _ A CS) as (A1 & E1 & W1 & X1 & O1).
    pose proof (expected_exits _ _ X1) as EX.
    assert (Cnt : forall f cs0, count f (c :: cs0) = (if f c then 1 else 0) + count f cs0).
    { intros f cs0. unfold count. cbn. destruct (f c); cbn [length]; lia. }
    destruct (leaves c) eqn:LC.
    + assert (e = Exits) by (apply EX; auto). subst e. injection E as <- <-.
      destruct O1 as [(H1 & H2 & H3)|(H1 & H2 & H3)].
      * exists 1, []. rewrite !Cnt. unfold count. cbn [filter length]. rewrite app_nil_r. repeat split; auto; try lia.
        apply (ta_hidden _ _ _ _ 0); auto. constructor.
      * exists 0, (printed cfg c ++ []). rewrite !Cnt. unfold count. cbn [filter length]. rewrite app_nil_r at 1. repeat split; auto; try lia.
        -- rewrite <- (app_nil_r (printed cfg c)). constructor; auto. constructor.
        -- rewrite app_nil_r. auto.
    + destruct (run cfg s1 cs) as [s2 es'] eqn:R.
      assert (E' : (s', es) = (s2, e :: es')).
      { destruct e; auto; try congruence. exfalso. assert (false = true) by (apply EX; auto). discriminate. }
      injection E' as -> ->.
      destruct (IH _ _ _ _ A1 R) as (n & shown & T & E2 & W2 & S2 & O2 & F2).
      destruct O1 as [(H1 & H2 & H3)|(H1 & H2 & H3)].
      * exists (1 + n), shown. rewrite !Cnt. repeat split; auto; try lia; [constructor; auto|congruence].
      * exists n, (printed cfg c ++ shown). rewrite !Cnt. repeat split; auto; try lia; [constructor; auto|].
        rewrite O2, H3, app_assoc. auto.
Qed.

(** ** Exit code *)

Lemma fold_andb l : forall b, fold_left andb l b = true <-> b = true /\ Forall (fun x => x = true) l.
Proof.
  induction l as [|x l IH]; intros b; cbn.
  - split; [intros ->; auto|tauto].
  - rewrite IH, Forall_cons_iff, andb_true_iff. tauto.
Qed.

Lemma forallb_id l : forallb id l = true <-> Forall (fun x => x = true) l.
Proof. rewrite forallb_forall, Forall_forall. reflexivity. Qed.

(** A run that gets as far as processing the files. *)
Definition proper_run (o : cli) : Prop :=
  (log_values o <= 2)%nat /\ version_asked o = false /\ (verify o = true -> vcg_available o = true) /\
  Forall (fun b => b = true) (includes_are_dirs o) /\ Forall (fun b => b = true) (items_exist o) /\
  broken_pipe o = false.

Lemma exit_code_spec o : proper_run o ->
  (exit_code o = 0 \/ exit_code o = 1) /\
  (exit_code o = 0 <->
   Forall (fun b => b = true) (registered_ok o) /\ process_result o = true /\
   cli_errors o = 0 /\ (error_on_warnings o = true -> cli_warnings o = 0)).
Proof.
  intros (H1 & H2 & H3 & H4 & H5 & H6). unfold exit_code. rewrite H2, H6.
  apply forallb_id in H4, H5. rewrite H4, H5.
  replace (2 <? Z.of_nat (log_values o)) with false by lia.
  replace (verify o && negb (vcg_available o)) with false.
  2:{ destruct (verify o); auto. rewrite H3; auto. }
  cbn [negb]. pose proof (fold_andb (registered_ok o) true) as F.
  destruct (fold_left andb (registered_ok o) true); cbn [negb].
  - assert (R : Forall (fun x => x = true) (registered_ok o)) by (apply F; auto).
    destruct (process_result o).
    + destruct (error_on_warnings o), (Z.eqb_spec (cli_warnings o) 0), (Z.eqb_spec (cli_errors o) 0);
        cbn; split; auto; split; intros X; try discriminate; try tauto; repeat split; auto; lia.
    + split; auto. split; [discriminate|]. intros (_ & X & _). discriminate.
  - split; auto. split; [discriminate|]. intros (X & _). assert (false = true) by (apply F; auto). discriminate.
Qed.
