(** Invariants of the lexer state and correctness of its loops. *)
From Coq Require Import QArith ZifyBool ZifyN ZifyNat.
From Verif Require Import Base PyText Lexer LexSpec.
Open Scope Z_scope.

Ltac inv H := inversion H; subst; clear H.
Ltac sp := repeat match goal with |- _ /\ _ => split end.

(** ** Lists *)

Lemma skipn_cons_nth {A} n (l : list A) x r :
  skipn n l = x :: r -> nth_error l n = Some x /\ skipn (S n) l = r.
Proof.
  revert l; induction n as [|n IH]; intros [|y l]; simpl; intros H; try discriminate.
  - inv H. auto.
  - apply IH in H. destruct l; simpl in *; auto.
Qed.

Lemma skipn_nil_nth {A} n (l : list A) :
  skipn n l = [] -> nth_error l n = None /\ skipn (S n) l = [].
Proof.
  intros H. assert (L : (length l <= n)%nat).
  { pose proof (skipn_length n l) as E. rewrite H in E. simpl in E. lia. }
  split; [apply nth_error_None; auto|apply skipn_all2; lia].
Qed.

Lemma firstn_snoc {A} n (l : list A) x r :
  skipn n l = x :: r -> firstn (S n) l = firstn n l ++ [x].
Proof.
  revert l; induction n as [|n IH]; intros [|y l]; simpl; intros H; try discriminate.
  - inv H. auto.
  - rewrite <- (IH l H). destruct l; simpl in *; auto.
Qed.

Fixpoint span (f : char -> bool) (s : text) : text * text :=
  match s with
  | [] => ([], [])
  | c :: s' => if f c then let (a, b) := span f s' in (c :: a, b) else ([], s)
  end.

Lemma span_app f s a b : span f s = (a, b) -> s = a ++ b.
Proof.
  revert a b; induction s as [|c s IH]; simpl; intros a b H.
  - inv H; auto.
  - destruct (f c); [destruct (span f s) as [a' b'] eqn:E; inv H; simpl; f_equal; auto|inv H; auto].
Qed.

Lemma span_all f s a b : span f s = (a, b) -> forallb f a = true.
Proof.
  revert a b; induction s as [|c s IH]; simpl; intros a b H.
  - inv H; auto.
  - destruct (f c) eqn:F; [destruct (span f s) as [a' b'] eqn:E; inv H; simpl; rewrite F; simpl; eapply IH; eauto|inv H; auto].
Qed.

Lemma span_stop f s a b : span f s = (a, b) -> match b with [] => True | c :: _ => f c = false end.
Proof.
  revert a b; induction s as [|c s IH]; simpl; intros a b H.
  - inv H; auto.
  - destruct (f c) eqn:F; [destruct (span f s) as [a' b'] eqn:E; inv H; eapply IH; eauto|inv H; auto].
Qed.

Lemma span_unique f a b :
  forallb f a = true -> match b with [] => True | c :: _ => f c = false end ->
  span f (a ++ b) = (a, b).
Proof.
  induction a as [|c a IH]; simpl; intros Ha Hb.
  - destruct b as [|d b]; simpl; auto. rewrite Hb. auto.
  - apply andb_true_iff in Ha as [F Ha]. rewrite F, IH; auto.
Qed.

(** ** The lexer state *)

Section PROOFS.
Variable content : text.
Notation len := (len content).
Notation advance := (advance content).
Notation fuel := (fuel content).

Definition char_at (i : Z) : option char :=
  if i <? 0 then None else nth_error content (Z.to_nat i).

(** Everything not yet read: [nc], [nnc], ... *)
Definition R (s : lstate) : text := skipn (Z.to_nat (lexpos s + 1)) content.

Definition wf (s : lstate) : Prop :=
  -1 <= lexpos s /\
  cc s = char_at (lexpos s) /\
  nc s = char_at (lexpos s + 1) /\
  nnc s = char_at (lexpos s + 2) /\
  (lexpos s = -1 -> line_no s = 0 /\ col_no s = 0) /\
  (0 <= lexpos s < len -> located content (Z.to_nat (lexpos s)) (line_no s) (col_no s)).

Lemma len_nonneg : 0 <= len.
Proof. unfold Lexer.len. lia. Qed.

Lemma char_at_lt i c : char_at i = Some c -> 0 <= i < len.
Proof.
  unfold char_at. destruct (i <? 0) eqn:E; [discriminate|]. intros H.
  assert (nth_error content (Z.to_nat i) <> None) as N by congruence.
  apply nth_error_Some in N. unfold Lexer.len. lia.
Qed.

Lemma char_at_ge i : len <= i -> char_at i = None.
Proof.
  intros H. unfold char_at. destruct (i <? 0); auto. apply nth_error_None. unfold Lexer.len in H. lia.
Qed.

Lemma char_at_some i : 0 <= i < len -> exists c, char_at i = Some c.
Proof.
  intros H. unfold char_at. destruct (i <? 0) eqn:E; [lia|].
  destruct (nth_error content (Z.to_nat i)) eqn:N; eauto.
  apply nth_error_None in N. unfold Lexer.len in H. lia.
Qed.

Lemma R_char s : -1 <= lexpos s ->
  match R s with
  | [] => char_at (lexpos s + 1) = None /\ len <= lexpos s + 1
  | c :: r => char_at (lexpos s + 1) = Some c /\ lexpos s + 1 < len /\
              skipn (Z.to_nat (lexpos s + 2)) content = r
  end.
Proof.
  intros Hp. unfold R, char_at.
  replace (lexpos s + 1 <? 0) with false by lia.
  destruct (skipn (Z.to_nat (lexpos s + 1)) content) as [|c r] eqn:E.
  - apply skipn_nil_nth in E as [E1 E2]. split; auto. apply nth_error_None in E1. unfold Lexer.len. lia.
  - apply skipn_cons_nth in E as [E1 E2]. split; [auto|]. split.
    + assert (nth_error content (Z.to_nat (lexpos s + 1)) <> None) as N by congruence.
      apply nth_error_Some in N. unfold Lexer.len. lia.
    + replace (Z.to_nat (lexpos s + 2)) with (S (Z.to_nat (lexpos s + 1))) by lia. auto.
Qed.

Lemma wf_nc s : wf s -> nc s = hd_error (R s).
Proof.
  intros (H0 & _ & H & _). rewrite H. pose proof (R_char s H0) as P.
  destruct (R s); simpl; tauto.
Qed.

Lemma wf_nnc s : wf s -> nnc s = hd_error (tl (R s)).
Proof.
  intros (H0 & _ & _ & H & _). rewrite H. pose proof (R_char s H0) as P.
  destruct (R s) as [|c r]; simpl.
  - apply char_at_ge. lia.
  - destruct P as (_ & _ & P). unfold char_at. replace (lexpos s + 2 <? 0) with false by lia.
    destruct r as [|d r]; simpl.
    + apply skipn_nil_nth in P. tauto.
    + apply skipn_cons_nth in P. tauto.
Qed.

Lemma R_advance s : -1 <= lexpos s -> R (advance s) = tl (R s).
Proof.
  intros H. pose proof (R_char s H) as P. unfold R in *. simpl.
  replace (lexpos s + 1 + 1) with (lexpos s + 2) by lia.
  destruct (skipn (Z.to_nat (lexpos s + 1)) content); simpl.
  - apply skipn_all2. unfold Lexer.len in P. lia.
  - tauto.
Qed.

Lemma located_step p c line col :
  nth_error content p = Some c -> located content p line col ->
  located content (S p)
          (if (c =? 10)%N then line + 1 else line)
          (if (c =? 10)%N then 1 else col + 1).
Proof.
  intros Hn (b & cur & E & Hin & Hb & Hl & Hc).
  assert (F : firstn (S p) content = firstn p content ++ [c]).
  { assert (skipn p content = c :: skipn (S p) content) as Hs.
    { clear - Hn. revert p Hn. induction content as [|y l IH]; intros [|p] H; simpl in *; try discriminate.
      - inv H; auto.
      - rewrite (IH p H). auto. }
    eapply firstn_snoc; eauto. }
  destruct (c =? 10)%N eqn:C.
  - apply N.eqb_eq in C. subst c.
    exists ((b ++ cur) ++ [10%N]), []. rewrite F, E, app_nil_r. split; [auto|]. split; [intros []|].
    split; [right; eauto|]. split; [|auto].
    pose proof (proj1 (count_occ_not_In N.eq_dec cur newline) Hin) as H0.
    rewrite !count_occ_app. unfold newline in *. rewrite H0. subst line.
    change (count_occ N.eq_dec [10%N] 10%N) with 1%nat. lia.
  - apply N.eqb_neq in C.
    exists b, (cur ++ [c]). rewrite F, E, app_assoc. split; [auto|]. split.
    + rewrite in_app_iff. simpl. intros [X|[X|[]]]; auto.
    + split; [auto|]. split; [auto|]. rewrite app_length. simpl. lia.
Qed.

Lemma wf_advance s : wf s -> wf (advance s).
Proof.
  intros W. pose proof W as (H0 & Hcc & Hnc & Hnnc & Hm & Hl).
  unfold wf. simpl. replace (lexpos s + 1 + 1) with (lexpos s + 2) by lia.
  split; [lia|]. split; [auto|]. split; [auto|]. split; [|split].
  - unfold char_at, content_at. replace (lexpos s + 1 + 2 <? 0) with false by lia.
    destruct (lexpos s + 1 + 2 <? len) eqn:L; auto.
    symmetry. apply nth_error_None. unfold Lexer.len in L. lia.
  - lia.
  - intros Hr. rewrite Hnc. destruct (char_at_some (lexpos s + 1)) as [c Hc]; [lia|]. rewrite Hc.
    destruct (Z.eq_dec (lexpos s) (-1)) as [E|NE].
    + destruct (Hm E) as [El Ec]. rewrite E. simpl. rewrite orb_true_r. rewrite El.
      exists [], []. simpl. repeat split; auto.
    + replace (lexpos s + 1 =? 0) with false by lia. rewrite orb_false_r.
      rewrite Hcc. destruct (char_at_some (lexpos s)) as [d Hd]; [lia|]. rewrite Hd. simpl.
      unfold char_at in Hd. replace (lexpos s <? 0) with false in Hd by lia.
      replace (Z.to_nat (lexpos s + 1)) with (S (Z.to_nat (lexpos s))) by lia.
      pose proof (located_step _ _ _ _ Hd (Hl ltac:(lia))) as L.
      destruct (d =? 10)%N; auto.
Qed.

Lemma wf_init : wf (init content).
Proof.
  unfold init, wf, Lexer.advance. cbn [lexpos line_no col_no cc nc nnc ceq].
  replace (-3 + 1 + 1 =? 0) with false by lia. replace (-3 + 1 =? 0) with false by lia.
  replace (-3 + 1 + 1) with (-1) by lia. replace (-3 + 1 + 2) with 0 by lia.
  replace (-1 + 1) with 0 by lia. replace (-1 + 2) with 1 by lia. cbn [orb].
  unfold char_at, content_at. cbn [Z.ltb Z.compare]. change (-1 <? 0) with true.
  change (0 <? 0) with false. change (1 <? 0) with false. change (Z.to_nat 0) with 0%nat.
  change (Z.to_nat 1) with 1%nat. unfold Lexer.len.
  split; [lia|]. split; [auto|]. split; [|split; [|split]].
  - destruct content; simpl; auto.
  - destruct content as [|a [|b l]]; simpl; auto.
    destruct (1 <? _) eqn:E; auto; lia.
  - auto.
  - lia.
Qed.

Lemma lexpos_init : lexpos (init content) = -1.
Proof. reflexivity. Qed.

Lemma R_init : R (init content) = content.
Proof. reflexivity. Qed.

Lemma wf_pos s : wf s -> -1 <= lexpos s.
Proof. intros (H & _); auto. Qed.

Lemma cc_advance s : cc (advance s) = nc s.
Proof. reflexivity. Qed.

Lemma R_length s : -1 <= lexpos s -> Z.of_nat (length (R s)) = Z.max 0 (len - lexpos s - 1).
Proof. intros H. unfold R. rewrite skipn_length. unfold Lexer.len. lia. Qed.

Lemma R_fuel s : -1 <= lexpos s -> (S (S (length (R s))) < fuel)%nat.
Proof.
  intros H. pose proof (R_length s H) as L. unfold Lexer.fuel, Lexer.len in *. lia.
Qed.

Lemma wf_cc_some s c : wf s -> cc s = Some c -> 0 <= lexpos s < len.
Proof. intros (_ & H & _) E. rewrite H in E. eapply char_at_lt; eauto. Qed.

Lemma wf_cc_none s : wf s -> cc s = None -> R s = [] \/ lexpos s = -1.
Proof.
  intros W E. pose proof W as (H0 & H & _). rewrite H in E.
  destruct (Z.eq_dec (lexpos s) (-1)); auto. left.
  destruct (Z_lt_dec (lexpos s) len) as [L|L].
  - destruct (char_at_some (lexpos s)) as [x X]; [lia|]. congruence.
  - unfold R. apply skipn_all2. unfold Lexer.len in L. lia.
Qed.

(** [whole s]: the current character followed by the unread ones. *)
Lemma slice_from s c a b :
  wf s -> cc s = Some c -> R s = a ++ b ->
  slice content (lexpos s) (lexpos s + Z.of_nat (length a)) = c :: a.
Proof.
  intros W Hc HR. pose proof (wf_cc_some s c W Hc) as P.
  pose proof W as (_ & Hcc & _).
  rewrite Hcc in Hc. unfold char_at in Hc. replace (lexpos s <? 0) with false in Hc by lia.
  unfold slice. unfold R in HR.
  replace (Z.to_nat (lexpos s + 1)) with (S (Z.to_nat (lexpos s))) in HR by lia.
  assert (skipn (Z.to_nat (lexpos s)) content = c :: a ++ b) as ->.
  { rewrite <- HR. clear -Hc. revert Hc. generalize (Z.to_nat (lexpos s)) as p.
    induction content as [|y l IH]; intros [|p] H; simpl in *; try discriminate.
    - inv H; auto.
    - rewrite (IH p H). auto. }
  replace (Z.to_nat (lexpos s + Z.of_nat (length a) + 1 - lexpos s)) with (S (length a)) by lia.
  simpl. f_equal. rewrite firstn_app, firstn_all, Nat.sub_diag. simpl. apply app_nil_r.
Qed.

(** ** Loops over the next character *)

Lemma while_nc f n s a b :
  wf s -> span f (R s) = (a, b) -> (length (R s) < n)%nat ->
  exists s', while_adv content n (fun s => match nc s with Some c => f c | None => false end) s = Some s'
             /\ wf s' /\ R s' = b /\ lexpos s' = lexpos s + Z.of_nat (length a) /\
             (a = [] -> s' = s).
Proof.
  revert n s a b.
  assert (G : forall r n s a b, R s = r -> wf s -> span f r = (a, b) -> (length r < n)%nat ->
    exists s', while_adv content n (fun s => match nc s with Some c => f c | None => false end) s = Some s'
             /\ wf s' /\ R s' = b /\ lexpos s' = lexpos s + Z.of_nat (length a) /\
             (a = [] -> s' = s)).
  { induction r as [|c r IH]; intros n s a b HR W HS Hn; (destruct n as [|n]; [simpl in Hn; lia|]); simpl.
    - rewrite (wf_nc s W), HR. simpl. inv HS. exists s. sp; auto. simpl. lia.
    - rewrite (wf_nc s W), HR. simpl. simpl in HS. destruct (f c) eqn:F.
      + destruct (span f r) as [a' b'] eqn:E. inv HS.
        destruct (IH n (advance s) a' b) as (s' & E1 & W' & E2 & E3 & _); auto.
        * rewrite R_advance, HR by (apply wf_pos; auto). auto.
        * apply wf_advance; auto.
        * simpl in Hn; lia.
        * exists s'. sp; auto. rewrite E3. simpl. lia. discriminate.
      + inv HS. exists s. sp; auto. simpl. lia. }
  intros n s a b W HS Hn. eapply G; eauto.
Qed.

Lemma skip_whitespace_spec s a b :
  wf s -> span is_space (R s) = (a, b) ->
  exists s', skip_whitespace content s = Some s' /\ wf s' /\
             cc s' = hd_error b /\ R s' = tl b /\
             lexpos s' = lexpos s + Z.of_nat (length a) + 1.
Proof.
  intros W HS. unfold skip_whitespace.
  destruct (while_nc is_space fuel s a b W HS) as (s' & E & W' & HR & HP & _).
  { pose proof (R_fuel s (wf_pos s W)). lia. }
  rewrite E. exists (advance s'). sp.
  - reflexivity.
  - apply wf_advance; auto.
  - rewrite cc_advance, (wf_nc s' W'), HR. auto.
  - rewrite R_advance by (apply wf_pos; auto). rewrite HR. auto.
  - simpl. lia.
Qed.

(** Line comments: the loop also stops when the current character is gone. *)
Definition not_nl (c : char) : bool := negb (c =? 10)%N.

Lemma while_line_comment n s a b c :
  wf s -> cc s = Some c -> span not_nl (R s) = (a, b) -> (S (length (R s)) < n)%nat ->
  exists s', while_adv content n (fun s => match cc s with None => false | Some _ => negb (ceq (nc s) 10) end) s = Some s'
             /\ wf s' /\ R s' = b.
Proof.
  revert n s a b c.
  assert (G : forall r n s a b c, R s = r -> wf s -> cc s = Some c -> span not_nl r = (a, b) -> (S (length r) < n)%nat ->
    exists s', while_adv content n (fun s => match cc s with None => false | Some _ => negb (ceq (nc s) 10) end) s = Some s'
             /\ wf s' /\ R s' = b).
  { induction r as [|d r IH]; intros n s a b c HR W Hc HS Hn; (destruct n as [|n]; [simpl in Hn; lia|]); simpl.
    - rewrite Hc, (wf_nc s W), HR. simpl. inv HS.
      destruct n as [|n]; [simpl in Hn; lia|]. simpl.
      rewrite (wf_nc s W), HR. simpl. exists (advance s). split; auto. split; [apply wf_advance; auto|].
      rewrite R_advance, HR by (apply wf_pos; auto). auto.
    - rewrite Hc, (wf_nc s W), HR. simpl. simpl in HS. unfold not_nl at 1 in HS.
      destruct (negb (d =? 10)%N) eqn:F.
      + destruct (span not_nl r) as [a' b'] eqn:E. inv HS.
        destruct (IH n (advance s) a' b d) as (s' & E1 & W' & E2); auto.
        * rewrite R_advance, HR by (apply wf_pos; auto). auto.
        * apply wf_advance; auto.
        * rewrite cc_advance, (wf_nc s W), HR. auto.
        * simpl in Hn; lia.
        * exists s'. sp; auto.
      + inv HS. exists s. sp; auto. }
  intros n s a b c W Hc HS Hn. eapply G; eauto.
Qed.

(** Block comments: position of the first "*/" in current char + rest. *)
Fixpoint find_close (c : char) (r : text) : option (text * text) :=
  match r with
  | [] => None
  | d :: r' => if ((c =? 42) && (d =? 47))%N then Some ([], r)
               else match find_close d r' with
                    | Some (a, b) => Some (d :: a, b)
                    | None => None
                    end
  end.

Lemma while_block_comment n s c :
  wf s -> cc s = Some c -> (length (R s) < n)%nat ->
  exists s', while_adv content n (fun s => match nc s with
                                   | None => false
                                   | Some _ => negb (ceq (cc s) 42 && ceq (nc s) 47)
                                   end) s = Some s'
             /\ wf s' /\
             match find_close c (R s) with
             | Some (a, b) => R s' = b
             | None => R s' = []
             end.
Proof.
  revert n s c.
  assert (G : forall r n s c, R s = r -> wf s -> cc s = Some c -> (length r < n)%nat ->
    exists s', while_adv content n (fun s => match nc s with
                                   | None => false
                                   | Some _ => negb (ceq (cc s) 42 && ceq (nc s) 47)
                                   end) s = Some s'
             /\ wf s' /\
             match find_close c r with
             | Some (a, b) => R s' = b
             | None => R s' = []
             end).
  { induction r as [|d r IH]; intros n s c HR W Hc Hn; (destruct n as [|n]; [simpl in Hn; lia|]); simpl.
    - rewrite (wf_nc s W), HR. simpl. exists s. auto.
    - rewrite Hc, (wf_nc s W), HR. simpl.
      destruct ((c =? 42) && (d =? 47))%N eqn:F; simpl.
      + exists s. auto.
      + destruct (IH n (advance s) d) as (s' & E1 & W' & E2); auto.
        * rewrite R_advance, HR by (apply wf_pos; auto). auto.
        * apply wf_advance; auto.
        * rewrite cc_advance, (wf_nc s W), HR. auto.
        * simpl in Hn; lia.
        * exists s'. sp; auto. destruct (find_close d r) as [[a b]|]; auto. }
  intros n s c W Hc Hn. eapply G; eauto.
Qed.

Lemma find_close_some c r a b :
  find_close c r = Some (a, b) ->
  exists b', r = a ++ b /\ b = 47%N :: b' /\
  first_end [42%N; 47%N] (c :: a ++ [47%N]).
Proof.
  revert c a b; induction r as [|d r IH]; simpl; intros c a b H; [discriminate|].
  destruct ((c =? 42) && (d =? 47))%N eqn:F.
  - apply andb_true_iff in F as [F1 F2]. apply N.eqb_eq in F1, F2. subst. inv H.
    exists r. split; auto. split; auto. simpl. split; [exists []; auto|].
    intros [|x [|x' x'']] y E; simpl in E; inv E; auto; destruct x''; discriminate.
  - destruct (find_close d r) as [[a' b']|] eqn:E; [|discriminate]. inv H.
    destruct (IH _ _ _ E) as (b0 & E1 & E2 & (x & E3) & E4). subst.
    exists b0. split; auto. split; auto. split.
    + exists (c :: x). simpl. f_equal. auto.
    + intros x0 y E5. destruct x0 as [|z x0]; simpl in E5.
      * inv E5. rewrite N.eqb_refl in F. destruct a'; simpl in *; try discriminate; inv H1;
          try discriminate F; auto.
      * inv E5. eapply E4; eauto.
Qed.

Lemma find_close_none c r :
  find_close c r = None -> ~ contains [42%N; 47%N] (c :: r).
Proof.
  revert c; induction r as [|d r IH]; simpl; intros c H (x & y & E).
  - destruct x as [|? [|? ?]]; simpl in E; inv E.
  - destruct ((c =? 42) && (d =? 47))%N eqn:F; [discriminate|].
    destruct (find_close d r) as [[a' b']|] eqn:E'; [discriminate|].
    destruct x as [|z x]; simpl in E; inv E.
    + simpl in F. discriminate.
    + eapply IH; eauto. exists x, y. auto.
Qed.

(** Uniqueness of a terminator. *)
Lemma app_cmp {A} (a b c d : list A) :
  a ++ b = c ++ d -> exists x, (a = c ++ x /\ d = x ++ b) \/ (c = a ++ x /\ b = x ++ d).
Proof.
  revert c; induction a as [|u a IH]; intros [|v c] H; simpl in *.
  - exists []. auto.
  - subst. exists (v :: c). auto.
  - subst. exists (u :: a). auto.
  - inv H. destruct (IH _ H2) as (x & [[-> ->]|[-> ->]]); exists x; auto.
Qed.

Lemma first_end_unique p a b c d :
  p <> [] -> first_end p a -> first_end p c -> a ++ b = c ++ d -> a = c /\ b = d.
Proof.
  intros Hp ((x & Ha) & Ua) ((y & Hc) & Uc) E.
  destruct (app_cmp a b c d E) as (z & [[E1 E2]|[E1 E2]]).
  - subst c. subst d. rewrite E1, <- app_assoc in Ua. specialize (Ua y z eq_refl). subst z.
    rewrite app_nil_r in E1. auto.
  - subst a. subst b. rewrite E1, <- app_assoc in Uc. specialize (Uc x z eq_refl). subst z.
    rewrite app_nil_r in E1. auto.
Qed.

(** ** Triple-quoted strings *)

(** Split after the first run of three [q]s, given [k] just read. *)
Fixpoint find_triple (q : char) (k : nat) (r : text) : option (text * text) :=
  match r with
  | [] => None
  | c :: r' =>
      if (c =? q)%N then
        if (2 <=? k)%nat then Some ([c], r')
        else match find_triple q (S k) r' with
             | Some (a, b) => Some (c :: a, b) | None => None end
      else match find_triple q 0 r' with
             | Some (a, b) => Some (c :: a, b) | None => None end
  end.

Lemma triple_loop_spec q n k s :
  wf s -> (k < 3)%nat -> (S (length (R s)) < n)%nat ->
  exists s', wf s' /\
    (R s <> [] -> lexpos s' = lexpos s + Z.of_nat (length (R s)) - Z.of_nat (length (R s'))) /\
    (R s = [] -> lexpos s' = lexpos s + 1) /\
    match find_triple q k (R s) with
    | Some (a, b) =>
        R s' = b /\
        match b with
        | [] => triple_loop content n q k s = (s', Some false)
        | _ => triple_loop content n q k s = (s', Some true)
        end
    | None => R s' = [] /\ triple_loop content n q k s = (s', Some false)
    end.
Proof.
  revert n k s.
  assert (G : forall r n k s, R s = r -> wf s -> (k < 3)%nat -> (S (length r) < n)%nat ->
    exists s', wf s' /\
    (r <> [] -> lexpos s' = lexpos s + Z.of_nat (length r) - Z.of_nat (length (R s'))) /\
    (r = [] -> lexpos s' = lexpos s + 1) /\
    match find_triple q k r with
    | Some (a, b) =>
        R s' = b /\
        match b with
        | [] => triple_loop content n q k s = (s', Some false)
        | _ => triple_loop content n q k s = (s', Some true)
        end
    | None => R s' = [] /\ triple_loop content n q k s = (s', Some false)
    end).
  { induction r as [|c r IH]; intros n k s HR W Hk Hn;
      (destruct n as [|n]; [simpl in Hn; lia|]).
    - exists (advance s).
      split; [apply wf_advance; auto|]. split; [intros X; contradiction|]. split; [reflexivity|]. simpl.
      assert (HR' : R (advance s) = []) by (rewrite R_advance, HR by (apply wf_pos; auto); auto).
      split; auto. change (nnc s) with (nc (advance s)). 
      rewrite (wf_nc _ (wf_advance s W)), HR'.
      destruct k as [|[|[|k]]]; auto; lia.
    - assert (HR' : R (advance s) = r) by (rewrite R_advance, HR by (apply wf_pos; auto); auto).
      assert (W' := wf_advance s W).
      assert (HL : lexpos (advance s) = lexpos s + Z.of_nat (length (c :: r)) - Z.of_nat (length (R (advance s)))).
      { rewrite HR'. simpl. lia. }
      assert (Hcc : cc (advance s) = Some c) by (rewrite cc_advance, (wf_nc s W), HR; auto).
      assert (Hnc : nc (advance s) = hd_error r) by (rewrite (wf_nc _ W'), HR'; auto).
      cbn [find_triple triple_loop]. replace (3 <=? k)%nat with false by lia.
      cbv zeta. rewrite Hcc, Hnc. cbn [ceq].
      destruct (c =? q)%N eqn:Q.
      + destruct (2 <=? k)%nat eqn:K2.
        * destruct r as [|d r]; simpl.
          -- exists (advance s). sp; auto; try discriminate.
          -- destruct n as [|n]; [simpl in Hn; lia|]. exists (advance s).
             split; auto. split; auto. split; [discriminate|]. split; auto.
             simpl. replace (2 <=? k)%nat with true by lia.
             destruct k as [|[|[|k]]]; try (simpl in K2; discriminate); try lia. auto.
        * destruct r as [|d r].
          -- exists (advance s). simpl. sp; auto; try discriminate.
          -- destruct (IH n (S k) (advance s)) as (s' & Ws' & L & _ & H); auto; [lia|simpl in *; lia|].
             exists s'. split; auto. split; [intros _; rewrite (L ltac:(discriminate)); simpl; lia|].
             split; [discriminate|]. cbn [hd_error].
             destruct (find_triple q (S k) (d :: r)) as [[a b]|]; auto.
      + destruct r as [|d r].
        * exists (advance s). simpl. sp; auto; try discriminate.
        * destruct (IH n O (advance s)) as (s' & Ws' & L & _ & H); auto; [simpl in *; lia|].
          exists s'. split; auto. split; [intros _; rewrite (L ltac:(discriminate)); simpl; lia|].
          split; [discriminate|]. cbn [hd_error].
          destruct (find_triple q 0 (d :: r)) as [[a b]|]; auto. }
  intros n k s W Hk Hn. eapply G; eauto.
Qed.
End PROOFS.
