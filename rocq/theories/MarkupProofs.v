(** The markup lexer and parser recognise exactly the markup texts. *)
From Coq Require Import ZifyBool ZifyN ZifyNat.
From Verif Require Import Base PyText Lexer LexSpec LexerProofs LexerScan LexerCorrect Markup MarkupSpec.
Open Scope Z_scope.

(** ** The markup lexer on the text still to read *)

Inductive tstep_res :=
| TS_end
| TS_err
| TS_tok (k : mkind) (x : text) (b : bool) (r : text).

Definition ident_c (d : char) : bool := is_alnum d || (d =? 95)%N.

Definition hd_is (c : char) (r : text) : bool := ceq (hd_error r) c.

Definition tstep (b : bool) (r : text) : tstep_res :=
  match (if b then snd (span is_space r) else r) with
  | [] => TS_end
  | c :: r2 =>
      if (c =? 91)%N && hd_is 91 r2 then
        if b then TS_err else TS_tok REFLIST_BEGIN (t "[[") true (tl r2)
      else if (c =? 93)%N && hd_is 93 r2 then
        if b then TS_tok REFLIST_END (t "]]") false (tl r2) else TS_err
      else if negb b then TS_tok CHARACTER [c] b r2
      else if (c =? 44)%N then TS_tok REFLIST_COMMA [c] b r2
      else if (c =? 46)%N then TS_tok REFLIST_DOT [c] b r2
      else if is_alpha c then
        let (a, rest) := span ident_c r2 in TS_tok REFLIST_IDENTIFIER (c :: a) b rest
      else TS_err
  end.

Lemma tstep_shorter b r k x b' r' : tstep b r = TS_tok k x b' r' -> (length r' < length r)%nat.
Proof.
  unfold tstep. set (r1 := if b then _ else r).
  assert (L : (length r1 <= length r)%nat).
  { subst r1. destruct b; auto. destruct (span is_space r) as [a c] eqn:E.
    apply span_app in E. subst r. rewrite app_length. cbn. lia. }
  destruct r1 as [|c r2]; [discriminate|]. cbn [length] in L.
  assert (L2 : (length (tl r2) <= length r2)%nat) by (destruct r2; cbn; lia).
  repeat match goal with
  | |- (if ?c then _ else _) = _ -> _ => destruct c
  | |- (let (_, _) := span ident_c r2 in _) = _ -> _ => destruct (span ident_c r2) as [a rest] eqn:E; apply span_app in E; subst r2
  end; intros H; inv H; try rewrite app_length in *; lia.
Qed.

Section LEX.
Variable n : nested.
Notation content := (ns_content n).
(** Every range of the contents has a source location. *)
Hypothesis located_ok : forall b e line col,
  0 <= b <= e -> e < Z.of_nat (length content) -> located content (Z.to_nat b) line col ->
  source_location n line col b e <> None.

(** What the location of a token is. *)
Definition tok_ok (tk : mtok) : Prop :=
  0 <= mt_begin tk <= mt_end tk /\ mt_end tk < Z.of_nat (length content) /\
  located content (Z.to_nat (mt_begin tk)) (mt_line tk) (mt_col tk) /\
  mt_text tk = slice content (mt_begin tk) (mt_end tk) /\
  source_location n (mt_line tk) (mt_col tk) (mt_begin tk) (mt_end tk) = Some (mt_loc tk).

Definition kt (tk : mtok) : mkind * text := (mt_kind tk, mt_text tk).

(** An error location is the one of a range of the contents. *)
Definition err_ok (l : sref) : Prop :=
  exists b e line col, 0 <= b <= e /\ e < Z.of_nat (length content) /\
    located content (Z.to_nat b) line col /\ source_location n line col b e = Some l.

Lemma mtoken_spec b s : wf content s ->
  match mtoken n b s with
  | MToken tk b' s' => wf content s' /\ tok_ok tk /\ tstep b (R content s) = TS_tok (mt_kind tk) (mt_text tk) b' (R content s')
  | MEnd => tstep b (R content s) = TS_end
  | MErr m l => tstep b (R content s) = TS_err /\ err_ok l
  | MCrash | MFuel => False
  end.
Proof.
  intros W. unfold mtoken, tstep.
  set (r1 := if b then snd (span is_space (R content s)) else R content s).
  assert (exists s1, (if b then skip_whitespace content s else Some (advance content s)) = Some s1 /\
            wf content s1 /\ cc s1 = hd_error r1 /\ R content s1 = tl r1) as (s1 & -> & W1 & C1 & R1).
  { subst r1. destruct b.
    - destruct (span is_space (R content s)) as [a r] eqn:E.
      destruct (skip_whitespace_spec content s a r W E) as (s' & E1 & W' & H1 & H2 & _). exists s'. auto.
    - exists (advance content s). split; [auto|]. split; [apply wf_advance; auto|]. split.
      + rewrite cc_advance. apply wf_nc; auto.
      + apply R_advance. apply wf_pos in W. auto. }
  clearbody r1. destruct r1 as [|c r2]; rewrite C1; cbn [hd_error]; auto. cbn [hd_error tl] in *.
  pose proof (wf_cc_some _ _ _ W1 C1) as P.
  assert (NC : nc s1 = hd_error r2) by (rewrite (wf_nc content s1 W1), R1; auto).
  rewrite NC. fold (hd_is 91 r2) (hd_is 93 r2).
  assert (LOC : located content (Z.to_nat (lexpos s1)) (line_no s1) (col_no s1)).
  { destruct W1 as (_ & _ & _ & _ & _ & H). apply H. exact P. }
  (* a token of [1 + length a] characters ending in [s'] *)
  assert (TOK : forall s' (a r' : text) k b' (x : text), wf content s' -> r2 = a ++ r' -> R content s' = r' ->
            lexpos s' = lexpos s1 + Z.of_nat (length a) -> x = c :: a ->
            match match source_location n (line_no s1) (col_no s1) (lexpos s1) (lexpos s') with
                  | Some l => MToken {| mt_kind := k; mt_text := slice content (lexpos s1) (lexpos s');
                                        mt_line := line_no s1; mt_col := col_no s1;
                                        mt_begin := lexpos s1; mt_end := lexpos s'; mt_loc := l |} b' s'
                  | None => MCrash end with
            | MToken tk b'0 s'0 => wf content s'0 /\ tok_ok tk /\
                TS_tok k x b' r' = TS_tok (mt_kind tk) (mt_text tk) b'0 (R content s'0)
            | MEnd => TS_tok k x b' r' = TS_end
            | MErr m l => TS_tok k x b' r' = TS_err /\ err_ok l
            | MCrash | MFuel => False
            end).
  { intros s' a r' k b' x W' E2 ER EP ->.
    assert (LL : lexpos s' < Z.of_nat (length content)).
    { pose proof (R_length content s1 (wf_pos _ _ W1)) as X. rewrite R1, E2, app_length in X. unfold len in *. lia. }
    destruct (source_location n (line_no s1) (col_no s1) (lexpos s1) (lexpos s')) as [l|] eqn:SL.
    - split; [auto|].
      assert (SLI : slice content (lexpos s1) (lexpos s') = c :: a).
      { rewrite EP. eapply slice_from; eauto. rewrite R1, E2. reflexivity. }
      split.
      + unfold tok_ok. cbn [mt_begin mt_end mt_line mt_col mt_text mt_loc mt_kind]. repeat split; auto; lia.
      + cbn [mt_kind mt_text]. rewrite SLI, ER. auto.
    - apply (located_ok (lexpos s1) (lexpos s') (line_no s1) (col_no s1)); auto. lia. }
  assert (ERR : forall m stop (a r' : text), r2 = a ++ r' -> stop = lexpos s1 + Z.of_nat (length a) ->
            match match source_location n (line_no s1) (col_no s1) (lexpos s1) stop with
                  | Some l => MErr m l
                  | None => MCrash end with
            | MToken tk b'0 s'0 => wf content s'0 /\ tok_ok tk /\ TS_err = TS_tok (mt_kind tk) (mt_text tk) b'0 (R content s'0)
            | MEnd => TS_err = TS_end
            | MErr _ l => TS_err = TS_err /\ err_ok l
            | MCrash | MFuel => False
            end).
  { intros m stop a r' E2 EP.
    assert (LL : stop < Z.of_nat (length content)).
    { pose proof (R_length content s1 (wf_pos _ _ W1)) as X. rewrite R1, E2, app_length in X. unfold len in *. lia. }
    destruct (source_location n (line_no s1) (col_no s1) (lexpos s1) stop) as [l|] eqn:SL.
    - split; [auto|]. exists (lexpos s1), stop, (line_no s1), (col_no s1). repeat split; auto; lia.
    - apply (located_ok (lexpos s1) stop (line_no s1) (col_no s1)); auto. lia. }
  assert (ADV : forall d, hd_is d r2 = true -> r2 = [d] ++ tl r2 /\ R content (advance content s1) = tl r2).
  { intros d H. unfold hd_is in H. destruct r2 as [|d' r2]; [discriminate|]. cbn in H. apply N.eqb_eq in H. subst d'.
    split; auto. rewrite R_advance by (apply wf_pos in W1; auto). rewrite R1. auto. }
  destruct ((c =? 91)%N && hd_is 91 r2) eqn:Q1.
  { apply andb_true_iff in Q1 as [Q0 Q1]. apply N.eqb_eq in Q0. subst c. destruct (ADV _ Q1) as [A1 A2].
    destruct b.
    - apply ERR with (a := [91%N]) (r' := tl r2); auto.
    - apply TOK with (a := [91%N]); auto. apply wf_advance; auto. }
  destruct ((c =? 93)%N && hd_is 93 r2) eqn:Q2.
  { apply andb_true_iff in Q2 as [Q0 Q2]. apply N.eqb_eq in Q0. subst c. destruct (ADV _ Q2) as [A1 A2].
    destruct b.
    - apply TOK with (a := [93%N]); auto. apply wf_advance; auto.
    - apply ERR with (a := [93%N]) (r' := tl r2); auto. }
  destruct b; cbn [negb].
  2:{ apply TOK with (a := []); auto. cbn. lia. }
  destruct (c =? 44)%N eqn:Q3. { apply TOK with (a := []); auto. cbn. lia. }
  destruct (c =? 46)%N eqn:Q4. { apply TOK with (a := []); auto. cbn. lia. }
  destruct (is_alpha c) eqn:Q5.
  - destruct (span ident_c r2) as [a rest] eqn:SP.
    pose proof (span_app _ _ _ _ SP) as E2. rewrite <- R1 in SP.
    destruct (while_nc content ident_c (fuel content) s1 a rest W1 SP) as (s' & E1 & W' & ER & EP & _).
    { pose proof (R_fuel content s1 (wf_pos _ _ W1)). lia. }
    match goal with |- context [while_adv content (fuel content) ?f s1] =>
      replace (while_adv content (fuel content) f s1) with (Some s') by (symmetry; exact E1) end.
    apply TOK with (a := a); auto.
  - apply ERR with (a := []) (r' := r2); auto. cbn. lia.
Qed.

(** The rest [r] is lexed completely into [xs]. *)
Inductive mlexed : bool -> text -> list (mkind * text) -> Prop :=
| ml_end b r : tstep b r = TS_end -> mlexed b r []
| ml_tok b r k x b' r' xs : tstep b r = TS_tok k x b' r' -> mlexed b' r' xs -> mlexed b r ((k, x) :: xs).

Definition term_ok (e : mterm) : Prop :=
  match e with TEnd => True | TErr _ l => err_ok l | TCrash | TFuel => False end.

Lemma mstream_spec fl b s : wf content s -> (length (R content s) < fl)%nat ->
  let (ts, e) := mstream n fl b s in
  Forall tok_ok ts /\ term_ok e /\ (length ts <= length (R content s))%nat /\
  (e = TEnd -> mlexed b (R content s) (map kt ts)) /\
  (forall xs, mlexed b (R content s) xs -> e = TEnd /\ map kt ts = xs).
Proof.
  revert b s. induction fl as [|fl IH]; intros b s W L; [lia|]. cbn [mstream].
  pose proof (mtoken_spec b s W) as M. destruct (mtoken n b s) as [tk b' s'| |m l| |]; try contradiction.
  - destruct M as (W' & T & E). pose proof (tstep_shorter _ _ _ _ _ _ E) as LT.
    specialize (IH b' s' W' ltac:(lia)). destruct (mstream n fl b' s') as [ts e].
    destruct IH as (I1 & I2 & I3 & I4 & I5). split; [auto|]. split; [auto|]. split; [cbn [length]; lia|]. split.
    + intros HE. cbn [map]. unfold kt at 1. eapply ml_tok; eauto.
    + intros xs X. inversion X; subst; rewrite E in *; [discriminate|].
      match goal with H : TS_tok _ _ _ _ = TS_tok _ _ _ _ |- _ => injection H as <- <- <- <- end.
      destruct (I5 xs0) as [-> <-]; auto.
  - split; [auto|]. split; [exact I|]. split; [cbn; lia|]. split; [intros _; apply ml_end; auto|].
    intros xs X. inversion X; subst; auto; congruence.
  - destruct M as [E EO]. split; [auto|]. split; [exact EO|]. split; [cbn; lia|]. split; [discriminate|].
    intros xs X. inversion X; subst; congruence.
Qed.

End LEX.

(** ** The parser on tokens *)

Notation kx := (mkind * text)%type (only parsing).

(** What a token sequence denotes. *)
Inductive tname : list kx -> mname -> Prop :=
| tn_plain x : tname [(REFLIST_IDENTIFIER, x)] (None, x)
| tn_dotted p d x : tname [(REFLIST_IDENTIFIER, p); (REFLIST_DOT, d); (REFLIST_IDENTIFIER, x)] (Some p, x).

Inductive tmore : list kx -> list mname -> Prop :=
| tm_nil : tmore [] []
| tm_cons c ts x us xs : tname ts x -> tmore us xs -> tmore ((REFLIST_COMMA, c) :: ts ++ us) (x :: xs).

Inductive tgram : list kx -> list mname -> Prop :=
| tg_nil : tgram [] []
| tg_char c ts xs : tgram ts xs -> tgram ((CHARACTER, c) :: ts) xs
| tg_list o c ts x us xs vs ys :
    tname ts x -> tmore us xs -> tgram vs ys ->
    tgram ((REFLIST_BEGIN, o) :: ts ++ us ++ (REFLIST_END, c) :: vs) (x :: xs ++ ys).

Definition no_dot (ts : list kx) : Prop := forall x ts', ts <> (REFLIST_DOT, x) :: ts'.

(** [tmore] in front of [rest], read greedily. *)
Inductive tmoreF : list kx -> list mname -> list kx -> Prop :=
| tf_nil rest : (forall x r, rest <> (REFLIST_COMMA, x) :: r) -> tmoreF rest [] rest
| tf_cons c ts x us xs rest :
    tname ts x -> (fst x = None -> no_dot us) -> tmoreF us xs rest ->
    tmoreF ((REFLIST_COMMA, c) :: ts ++ us) (x :: xs) rest.

Section PARSE.
Variable last : mterm.
Variable origin : sref.
Variable qual : text -> bool.
(** The end of the token sequence is no internal failure. *)
Variable ok_loc : sref -> Prop.
Hypothesis last_ok : match last with TEnd => True | TErr _ l => ok_loc l | TCrash | TFuel => False end.
Hypothesis origin_ok : ok_loc origin.

Notation M := (res (merr * sref)).

(** The tokens from the next one on. *)
Definition ahead (s : mstate) : list mtok :=
  match nt s with Some tk => tk :: todo s | None => [] end.

Definition inv (s : mstate) : Prop :=
  (nt s = None -> todo s = [] /\ last = TEnd) /\
  Forall (fun tk => ok_loc (mt_loc tk)) (ahead s) /\
  (forall c, ct s = Some c -> ok_loc (mt_loc c)).

Definition kxs (s : mstate) : list kx := map kt (ahead s).

(** Errors are located; nothing else goes wrong. *)
Definition good {A} (r : M A) : Prop :=
  match r with Ok _ => True | Err (_, l) => ok_loc l | Crash | OutOfFuel => False end.

Definition ref_name (r : mref) : mname := (mr_package r, mr_name r).

Lemma mkind_eqb_eq a b : mkind_eqb a b = true <-> a = b.
Proof. destruct a, b; cbn; split; congruence. Qed.

Lemma madvance_spec s tk r : inv s -> ahead s = tk :: r ->
  match madvance last s with
  | Ok s' => inv s' /\ ct s' = Some tk /\ ahead s' = r
  | Err (_, l) => ok_loc l /\ last <> TEnd
  | _ => False
  end.
Proof.
  intros (I1 & I2 & I3) A. unfold madvance. unfold ahead in A. destruct (nt s) as [k|] eqn:NT; [|discriminate].
  injection A as -> <-. unfold ahead in I2. rewrite NT in I2. inversion I2; subst.
  destruct (todo s) as [|u us] eqn:TD.
  - destruct last eqn:EL; cbn in *; auto.
    + split; [|auto]. split; [auto|]. split; [constructor|]. cbn. intros c [= <-]. auto.
    + split; auto. discriminate.
  - split; [|auto]. split; [discriminate|]. cbn. split; [auto|]. intros c [= <-]. auto.
Qed.

Lemma mmatch_spec k s : inv s ->
  match mmatch last origin k s with
  | Ok s' => inv s' /\ exists tk, mt_kind tk = k /\ ahead s = tk :: ahead s' /\ ct s' = Some tk
  | Err (_, l) => ok_loc l /\ (last = TEnd -> forall x ts, kxs s <> (k, x) :: ts)
  | _ => False
  end.
Proof.
  intros I. pose proof I as (I1 & I2 & I3). unfold mmatch. destruct (nt s) as [tk|] eqn:NT.
  - assert (A : ahead s = tk :: todo s) by (unfold ahead; rewrite NT; auto).
    destruct (mkind_eqb (mt_kind tk) k) eqn:K.
    + apply mkind_eqb_eq in K. pose proof (madvance_spec s tk (todo s) I A) as MA.
      destruct (madvance last s) as [s'|[m l]| |]; auto.
      * destruct MA as (I' & C' & A'). split; auto. exists tk. rewrite A, A'. auto.
      * destruct MA as (O & L). split; [auto|]. intros LE. contradiction.
    + split.
      * rewrite A in I2. inversion I2; auto.
      * intros _ x ts. unfold kxs. rewrite A. cbn. intros [= E _ _].
        apply mkind_eqb_eq in E. congruence.
  - split.
    + destruct (ct s) eqn:C; auto.
    + intros _ x ts. unfold kxs, ahead. rewrite NT. discriminate.
Qed.

Lemma mpeek_spec k s : mpeek k s = true <-> exists x ts, kxs s = (k, x) :: ts.
Proof.
  unfold mpeek, kxs, ahead. destruct (nt s) as [tk|]; cbn [map].
  - rewrite mkind_eqb_eq. split.
    + intros <-. eexists _, _. reflexivity.
    + intros (x & ts & [= -> _ _]). auto.
  - split; [discriminate|]. intros (x & ts & [=]).
Qed.

Lemma mpeek_false k s : mpeek k s = false <-> forall x ts, kxs s <> (k, x) :: ts.
Proof.
  pose proof (mpeek_spec k s) as H. destruct (mpeek k s).
  - split; [discriminate|]. intros N. destruct H as [H _]. destruct (H eq_refl) as (x & ts & E). exfalso. eapply N; eauto.
  - split; auto. intros _ x ts E. destruct H as [_ H]. assert (false = true) by eauto. discriminate.
Qed.

Definition qual_ok (x : mname) : Prop := match fst x with Some p => qual p = true | None => True end.

Lemma qualified_name_spec s : inv s ->
  match parse_qualified_name last origin qual s with
  | Ok (r, s') => inv s' /\ ok_loc (mr_loc r) /\
      exists ts, tname ts (ref_name r) /\ kxs s = ts ++ kxs s' /\ qual_ok (ref_name r) /\
                 (mr_package r = None -> no_dot (kxs s'))
  | Err (_, l) => ok_loc l /\
      (last = TEnd -> forall ts x us, kxs s = ts ++ us -> tname ts x -> (fst x = None -> no_dot us) -> ~ qual_ok x)
  | _ => False
  end.
Proof.
  intros I. unfold parse_qualified_name, bind, current.
  pose proof (mmatch_spec REFLIST_IDENTIFIER s I) as M1.
  destruct (mmatch last origin REFLIST_IDENTIFIER s) as [s1|[m l]| |]; auto.
  2:{ destruct M1 as [O N]. split; auto. intros LE ts x us E T _ _. inversion T; subst; eapply N; eauto. }
  destruct M1 as (I1 & c & K1 & A1 & C1). rewrite C1.
  assert (X1 : kxs s = (REFLIST_IDENTIFIER, mt_text c) :: kxs s1).
  { unfold kxs. rewrite A1. cbn. unfold kt. rewrite K1. auto. }
  assert (OC : ok_loc (mt_loc c)).
  { destruct I as (_ & F & _). rewrite A1 in F. inversion F; auto. }
  destruct (mpeek REFLIST_DOT s1) eqn:PD.
  - pose proof PD as PD'. apply mpeek_spec in PD' as (dx & dts & D).
    destruct (qual (mt_text c)) eqn:Q.
    + pose proof (mmatch_spec REFLIST_DOT s1 I1) as M2.
      destruct (mmatch last origin REFLIST_DOT s1) as [s2|[m l]| |]; auto.
      2:{ destruct M2 as [O N]. split; auto. intros LE. exfalso. exact (N LE _ _ D). }
      destruct M2 as (I2 & d & K2 & A2 & C2).
      assert (X2 : kxs s1 = (REFLIST_DOT, mt_text d) :: kxs s2).
      { unfold kxs. rewrite A2. cbn. unfold kt. rewrite K2. auto. }
      pose proof (mmatch_spec REFLIST_IDENTIFIER s2 I2) as M3.
      destruct (mmatch last origin REFLIST_IDENTIFIER s2) as [s3|[m l]| |]; auto.
      2:{ destruct M3 as [O N]. split; auto. intros LE ts x us E T ND _. rewrite X1, X2 in E.
          inversion T; subst; cbn in E; injection E; intros; subst.
          - eapply (ND eq_refl). reflexivity.
          - eapply N; eauto. }
      destruct M3 as (I3 & c2 & K3 & A3 & C3). rewrite C3.
      assert (X3 : kxs s2 = (REFLIST_IDENTIFIER, mt_text c2) :: kxs s3).
      { unfold kxs. rewrite A3. cbn. unfold kt. rewrite K3. auto. }
      split; [auto|]. cbn [mr_loc]. split.
      { destruct I2 as (_ & F & _). rewrite A3 in F. inversion F; auto. }
      eexists. split; [apply tn_dotted|]. split; [rewrite X1, X2, X3; reflexivity|]. split; [exact Q|discriminate].
    + split; auto. intros LE ts x us E T ND QO. rewrite X1, D in E.
      inversion T; subst; cbn in E; injection E; intros; subst.
      * eapply (ND eq_refl). reflexivity.
      * unfold qual_ok in QO. cbn in QO. congruence.
  - split; [auto|]. split; [auto|]. eexists. split; [apply tn_plain|]. split; [rewrite X1; reflexivity|].
    split; [exact Logic.I|]. intros _ x ts E. rewrite mpeek_false in PD. eapply PD; eauto.
Qed.

Lemma tname_unique ts x us ts' x' us' : tname ts x -> tname ts' x' -> ts ++ us = ts' ++ us' ->
  (fst x = None -> no_dot us) -> (fst x' = None -> no_dot us') -> ts = ts' /\ x = x' /\ us = us'.
Proof.
  intros T T' E N N'. inversion T; subst; inversion T'; subst; cbn in E; injection E; intros; subst; auto.
  - exfalso. eapply (N eq_refl). reflexivity.
  - exfalso. eapply (N' eq_refl). reflexivity.
Qed.

Lemma tmoreF_more us xs rest : tmoreF us xs rest -> exists ts, us = ts ++ rest /\ tmore ts xs.
Proof.
  induction 1 as [rest N|c ts x us xs rest T N F (ts' & -> & IH)].
  - exists []. split; [auto|constructor].
  - exists ((REFLIST_COMMA, c) :: ts ++ ts'). split; [cbn; rewrite app_assoc; auto|]. constructor; auto.
Qed.

Lemma tmore_F us xs rest : tmore us xs -> (forall x r, rest <> (REFLIST_COMMA, x) :: r) -> no_dot rest -> tmoreF (us ++ rest) xs rest.
Proof.
  induction 1 as [|c ts x us xs T F IH]; intros N D.
  - constructor; auto.
  - cbn. rewrite <- app_assoc. constructor; auto. intros _. inversion F; subst; cbn; auto. intros ? ?; discriminate.
Qed.

Lemma more_names_spec fl s : inv s -> (length (kxs s) < fl)%nat ->
  match parse_more_names last origin qual fl s with
  | Ok (rs, s') => inv s' /\ Forall (fun r => ok_loc (mr_loc r)) rs /\
      tmoreF (kxs s) (map ref_name rs) (kxs s') /\ Forall qual_ok (map ref_name rs)
  | Err (_, l) => ok_loc l /\
      (last = TEnd -> forall xs us, tmoreF (kxs s) xs us -> ~ Forall qual_ok xs)
  | _ => False
  end.
Proof.
  revert s. induction fl as [|fl IH]; intros s I L; [lia|]. cbn [parse_more_names].
  destruct (mpeek REFLIST_COMMA s) eqn:P.
  2:{ split; [auto|]. split; [constructor|]. split; [|constructor].
      rewrite mpeek_false in P. constructor. exact P. }
  pose proof P as P'. apply mpeek_spec in P' as (cx & cts & CE).
  unfold bind at 1. pose proof (mmatch_spec REFLIST_COMMA s I) as M1.
  destruct (mmatch last origin REFLIST_COMMA s) as [s1|[m l]| |]; auto.
  2:{ destruct M1 as [O N]. split; auto. intros LE. exfalso. exact (N LE _ _ CE). }
  destruct M1 as (I1 & c & K1 & A1 & C1).
  assert (X1 : kxs s = (REFLIST_COMMA, mt_text c) :: kxs s1).
  { unfold kxs. rewrite A1. cbn. unfold kt. rewrite K1. auto. }
  rewrite X1.
  unfold bind at 1. pose proof (qualified_name_spec s1 I1) as M2.
  destruct (parse_qualified_name last origin qual s1) as [[r s2]|[m l]| |]; auto.
  2:{ destruct M2 as [O N]. split; auto. intros LE xs us T Q. inversion T; subst.
      - match goal with H : forall x r, _ <> _ |- _ => eapply H; reflexivity end.
      - inversion Q; subst. eapply (N LE); eauto. }
  destruct M2 as (I2 & OR & ts1 & T1 & E1 & Q1 & ND1). cbn [fst snd].
  assert (L2 : (length (kxs s2) < fl)%nat).
  { rewrite X1, E1 in L. cbn [length] in L. rewrite app_length in L. lia. }
  specialize (IH s2 I2 L2). unfold bind at 1.
  destruct (parse_more_names last origin qual fl s2) as [[rs s3]|[m l]| |]; auto.
  - destruct IH as (I3 & OL & T2 & Q2). cbn [fst snd].
    split; [auto|]. split; [constructor; auto|]. rewrite E1. split; [|constructor; auto].
    apply tf_cons; auto.
  - destruct IH as [O N]. split; auto. intros LE xs us T Q. inversion T; subst.
    + match goal with H : forall x r, _ <> _ |- _ => eapply H; reflexivity end.
    + inversion Q; subst. rewrite E1 in *.
      match goal with H : _ ++ _ = _ ++ _ |- _ => rename H into E end.
      destruct (tname_unique _ _ _ _ _ _ ltac:(eassumption) T1 E) as (_ & _ & ->); auto.
      eapply (N LE); eauto.
Qed.

Lemma tmoreF_unique a xs r xs' r' : tmoreF a xs r -> tmoreF a xs' r' -> xs = xs' /\ r = r'.
Proof.
  intros T. revert xs' r'. induction T as [rest N|c ts x us xs rest T N F IH]; intros xs' r' T'.
  - inversion T'; subst; auto. exfalso. eapply N; reflexivity.
  - inversion T'; subst.
    + exfalso. match goal with H : forall x r, _ <> _ |- _ => eapply H; reflexivity end.
    + match goal with H : _ ++ _ = _ ++ _ |- _ => rename H into E end.
      destruct (tname_unique _ _ _ _ _ _ ltac:(eassumption) T E) as (_ & -> & ->); auto.
      match goal with H : tmoreF us _ _ |- _ => destruct (IH _ _ H) as [-> ->] end. auto.
Qed.

Lemma ref_list_spec fl s : inv s -> (length (kxs s) < fl)%nat ->
  match parse_ref_list last origin qual fl s with
  | Ok (rs, s') => inv s' /\ Forall (fun r => ok_loc (mr_loc r)) rs /\ (length (kxs s') < length (kxs s))%nat /\
      Forall qual_ok (map ref_name rs) /\
      exists o c ts x us xs, tname ts x /\ tmore us xs /\ map ref_name rs = x :: xs /\
        kxs s = (REFLIST_BEGIN, o) :: ts ++ us ++ (REFLIST_END, c) :: kxs s'
  | Err (_, l) => ok_loc l /\
      (last = TEnd -> forall o c ts x us xs vs, kxs s = (REFLIST_BEGIN, o) :: ts ++ us ++ (REFLIST_END, c) :: vs ->
         tname ts x -> tmore us xs -> ~ Forall qual_ok (x :: xs))
  | _ => False
  end.
Proof.
  intros I L. unfold parse_ref_list. unfold bind at 1. pose proof (mmatch_spec REFLIST_BEGIN s I) as M1.
  destruct (mmatch last origin REFLIST_BEGIN s) as [s1|[m l]| |]; auto.
  2:{ destruct M1 as [O N]. split; auto. intros LE. intros * E. exfalso. exact (N LE _ _ E). }
  destruct M1 as (I1 & o & K1 & A1 & C1).
  assert (X1 : kxs s = (REFLIST_BEGIN, mt_text o) :: kxs s1).
  { unfold kxs. rewrite A1. cbn. unfold kt. rewrite K1. auto. }
  rewrite X1 in *.
  assert (EN : forall us xs c vs, tmore us xs -> tmoreF (us ++ (REFLIST_END, c) :: vs) xs ((REFLIST_END, c) :: vs))
    by (intros; apply tmore_F; [auto|discriminate|intros ? ?; discriminate]).
  assert (ED : forall us xs c vs, tmore us xs -> no_dot (us ++ (REFLIST_END, c) :: vs)).
  { intros us xs c vs T. inversion T; subst; intros ? ?; discriminate. }
  unfold bind at 1. pose proof (qualified_name_spec s1 I1) as M2.
  destruct (parse_qualified_name last origin qual s1) as [[r s2]|[m l]| |]; auto.
  2:{ destruct M2 as [O N]. split; auto. intros LE o' c ts x us xs vs E T1 T2 Q.
      injection E as _ E. inversion Q; subst. eapply (N LE); eauto. }
  destruct M2 as (I2 & OR & ts1 & T1 & E1 & Q1 & ND1). cbn [fst snd].
  assert (L2 : (length (kxs s2) < fl)%nat).
  { rewrite E1 in L. cbn [length] in L. rewrite app_length in L. lia. }
  unfold bind at 1. pose proof (more_names_spec fl s2 I2 L2) as M3.
  destruct (parse_more_names last origin qual fl s2) as [[rs s3]|[m l]| |]; auto.
  2:{ destruct M3 as [O N]. split; auto. intros LE o' c ts x us xs vs E T2 T3 Q.
      injection E as _ E. rewrite E1 in E. inversion Q; subst.
      destruct (tname_unique _ _ _ _ _ _ T1 T2 E ND1) as (_ & _ & E4); [eauto|].
      rewrite E4 in N. eapply (N LE); eauto. }
  destruct M3 as (I3 & OL & T2 & Q2). cbn [fst snd].
  unfold bind at 1. pose proof (mmatch_spec REFLIST_END s3 I3) as M4.
  destruct (mmatch last origin REFLIST_END s3) as [s4|[m l]| |]; auto.
  2:{ destruct M4 as [O N]. split; auto. intros LE o' c ts' x us xs vs E T3 T4 Q.
      injection E as _ E. rewrite E1 in E.
      destruct (tname_unique _ _ _ _ _ _ T1 T3 E ND1) as (_ & EX & E4); [eauto|].
      rewrite E4 in T2. destruct (tmoreF_unique _ _ _ _ _ T2 (EN us xs c vs T4)) as (_ & E5).
      exact (N LE _ _ E5). }
  destruct M4 as (I4 & c & K4 & A4 & C4).
  assert (X4 : kxs s3 = (REFLIST_END, mt_text c) :: kxs s4).
  { unfold kxs. rewrite A4. cbn. unfold kt. rewrite K4. auto. }
  destruct (tmoreF_more _ _ _ T2) as (us & E2 & T3).
  split; [auto|]. split; [constructor; auto|]. split.
  { rewrite E1, E2, X4. cbn [length]. rewrite !app_length. cbn. lia. }
  split; [constructor; auto|].
  exists (mt_text o), (mt_text c), ts1, (ref_name r), us, (map ref_name rs).
  split; [auto|]. split; [auto|]. split; [reflexivity|]. rewrite E1, E2, X4. reflexivity.
Qed.

Lemma tgram_list_inv o vs xs : tgram ((REFLIST_BEGIN, o) :: vs) xs ->
  exists ts x us ys c ws zs, tname ts x /\ tmore us ys /\ tgram ws zs /\ xs = x :: ys ++ zs /\ vs = ts ++ us ++ (REFLIST_END, c) :: ws.
Proof. intros T. inversion T; subst. do 7 eexists. repeat split; eauto. Qed.

Lemma list_unique ts x us xs c vs ts' x' us' xs' c' vs' :
  tname ts x -> tmore us xs -> tname ts' x' -> tmore us' xs' ->
  ts ++ us ++ (REFLIST_END, c) :: vs = ts' ++ us' ++ (REFLIST_END, c') :: vs' -> x = x' /\ xs = xs' /\ vs = vs'.
Proof.
  intros T1 T2 T3 T4 E.
  assert (ED : forall us xs c vs, tmore us xs -> no_dot (us ++ (REFLIST_END, c) :: vs)).
  { intros ? ? ? ? T. inversion T; subst; intros ? ?; discriminate. }
  destruct (tname_unique _ _ _ _ _ _ T1 T3 E) as (_ & -> & E2); [eauto|eauto|].
  assert (F1 : tmoreF (us ++ (REFLIST_END, c) :: vs) xs ((REFLIST_END, c) :: vs))
    by (apply tmore_F; [auto|discriminate|intros ? ?; discriminate]).
  assert (F2 : tmoreF (us' ++ (REFLIST_END, c') :: vs') xs' ((REFLIST_END, c') :: vs'))
    by (apply tmore_F; [auto|discriminate|intros ? ?; discriminate]).
  rewrite E2 in F1. destruct (tmoreF_unique _ _ _ _ _ F1 F2) as [-> [= _ ->]]. auto.
Qed.

Lemma all_references_spec fl s : inv s -> (length (kxs s) < fl)%nat ->
  match parse_all_references last origin qual fl s with
  | Ok rs => Forall (fun r => ok_loc (mr_loc r)) rs /\ last = TEnd /\
      tgram (kxs s) (map ref_name rs) /\ Forall qual_ok (map ref_name rs)
  | Err (_, l) => ok_loc l /\
      (last = TEnd -> forall xs, tgram (kxs s) xs -> ~ Forall qual_ok xs)
  | _ => False
  end.
Proof.
  revert s. induction fl as [|fl IH]; intros s I L; [lia|]. cbn [parse_all_references].
  destruct (nt s) as [tk|] eqn:NT.
  2:{ destruct I as (I & _). destruct (I NT) as [_ LE]. split; [constructor|]. split; [auto|].
      unfold kxs, ahead. rewrite NT. split; constructor. }
  destruct (mpeek CHARACTER s) eqn:PC.
  - unfold mpeek in PC. rewrite NT in PC. apply mkind_eqb_eq in PC.
    assert (A : ahead s = tk :: todo s) by (unfold ahead; rewrite NT; auto).
    assert (X : kxs s = (CHARACTER, mt_text tk) :: map kt (todo s)).
    { unfold kxs. rewrite A. cbn. unfold kt at 1. rewrite PC. auto. }
    pose proof (madvance_spec s tk (todo s) I A) as MA. unfold bind.
    destruct (madvance last s) as [s'|[m l]| |]; auto.
    2:{ destruct MA as [O N]. split; [auto|]. intros LE. contradiction. }
    destruct MA as (I' & C' & A').
    assert (X' : kxs s = (CHARACTER, mt_text tk) :: kxs s') by (rewrite X; unfold kxs; rewrite A'; auto).
    assert (L' : (length (kxs s') < fl)%nat) by (rewrite X' in L; cbn in L; lia).
    specialize (IH s' I' L'). destruct (parse_all_references last origin qual fl s') as [rs|[m l]| |]; auto.
    + destruct IH as (J1 & J2 & J3 & J4). rewrite X'. split; [auto|]. split; [auto|]. split; [constructor; auto|auto].
    + destruct IH as [O N]. split; auto. intros LE xs T. rewrite X' in T. inversion T; subst. auto.
  - unfold bind at 1. pose proof (ref_list_spec (S fl) s I L) as M1.
    destruct (parse_ref_list last origin qual (S fl) s) as [[rs s']|[m l]| |]; auto.
    + destruct M1 as (I' & OL & LL & Q1 & o & c & ts & x & us & xs & T1 & T2 & E1 & E2). cbn [fst snd].
      specialize (IH s' I' ltac:(lia)). unfold bind.
      destruct (parse_all_references last origin qual fl s') as [rs'|[m l]| |]; auto.
      * destruct IH as (J1 & J2 & J3 & J4). split; [apply Forall_app; auto|]. split; [auto|].
        rewrite map_app. split; [|apply Forall_app; auto].
        rewrite E1, E2. cbn. constructor; auto.
      * destruct IH as [O N]. split; auto. intros LE ys T Q. rewrite E2 in T.
        apply tgram_list_inv in T as (ts' & x' & us' & ys' & c' & ws & zs & T3 & T4 & T5 & -> & E).
        destruct (list_unique _ _ _ _ _ _ _ _ _ _ _ _ T1 T2 T3 T4 E) as (_ & _ & EV).
        rewrite <- EV in T5.
        change (x' :: ys' ++ zs) with ((x' :: ys') ++ zs) in Q. apply Forall_app in Q as [_ Q]. eapply N; eauto.
    + destruct M1 as [O N]. split; auto. intros LE ys T Q.
      destruct (kxs s) as [|[k y] r] eqn:KS.
      { unfold kxs, ahead in KS. rewrite NT in KS. discriminate. }
      inversion T; subst.
      * rewrite mpeek_false in PC. eapply PC; eauto.
      * eapply (N LE); eauto. 
        match goal with H : Forall _ (?x :: ?xs ++ ?ys) |- _ => change (x :: xs ++ ys) with ((x :: xs) ++ ys) in H; apply Forall_app in H; apply H end.
Qed.

Lemma parse_tokens_spec (ts : list mtok) : Forall (fun tk => ok_loc (mt_loc tk)) ts ->
  match parse_tokens last origin qual ts with
  | Ok rs => Forall (fun r => ok_loc (mr_loc r)) rs /\ last = TEnd /\
      tgram (map kt ts) (map ref_name rs) /\ Forall qual_ok (map ref_name rs)
  | Err (_, l) => ok_loc l /\
      (last = TEnd -> forall xs, tgram (map kt ts) xs -> ~ Forall qual_ok xs)
  | _ => False
  end.
Proof.
  intros O. unfold parse_tokens, madvance. cbn [todo nt ct]. destruct ts as [|tk ts].
  - destruct last; cbn in *; auto.
    + split; [constructor|]. split; [auto|]. split; constructor.
    + split; auto. discriminate.
  - unfold bind. set (s := {| ct := None; nt := Some tk; todo := ts |}).
    change (map kt (tk :: ts)) with (kxs s).
    apply all_references_spec.
    + split; [discriminate|]. split; [exact O|]. discriminate.
    + unfold kxs, ahead. cbn. rewrite map_length. lia.
Qed.

End PARSE.

(** ** Token sequences and texts *)

Lemma span_white (w r : text) : Forall white w -> match r with [] => True | c :: _ => is_space c = false end ->
  span is_space (w ++ r) = (w, r).
Proof.
  intros F. induction F as [|c w H F IH]; cbn; intros N.
  - destruct r as [|c r]; cbn; auto. rewrite N. auto.
  - apply is_space_white in H. rewrite H, (IH N). auto.
Qed.

Lemma tstep_in (w r : text) : Forall white w -> tstep true (w ++ r) = tstep true r.
Proof.
  intros F. unfold tstep. assert (E : snd (span is_space (w ++ r)) = snd (span is_space r)).
  { induction F as [|c w H F IH]; cbn; auto. apply is_space_white in H. rewrite H.
    destruct (span is_space (w ++ r)). auto. }
  rewrite E. auto.
Qed.

Lemma letter_facts c : letter c -> is_space c = false /\ is_alpha c = true /\ c <> 91%N /\ c <> 93%N /\ c <> 44%N /\ c <> 46%N.
Proof. intros H. pose proof (proj2 (is_alpha_letter c) H). unfold letter in H. unfold is_space. lia. Qed.

Definition not_ident (r : text) : Prop := match r with [] => True | c :: _ => ~ ident_char c end.

Lemma span_ident (a r : text) : Forall ident_char a -> not_ident r -> span ident_c (a ++ r) = (a, r).
Proof.
  intros F. induction F as [|c w H F IH]; cbn; intros N.
  - destruct r as [|c r]; cbn; auto. destruct (ident_c c) eqn:E; auto.
    apply is_ident_char in E. contradiction.
  - apply is_ident_char in H. fold (ident_c c) in H. rewrite H, (IH N). auto.
Qed.

Lemma tstep_ident (n r : text) : mident n -> not_ident r -> tstep true (n ++ r) = TS_tok REFLIST_IDENTIFIER n true r.
Proof.
  intros (c & a & -> & L & F) N. destruct (letter_facts c L) as (H1 & H2 & H3 & H4 & H5 & H6).
  unfold tstep. cbn [app span]. rewrite H1. cbn [snd].
  replace (c =? 91)%N with false by lia. replace (c =? 93)%N with false by lia.
  replace (c =? 44)%N with false by lia. replace (c =? 46)%N with false by lia. cbn [andb negb]. rewrite H2.
  rewrite span_ident; auto.
Qed.

Lemma white_not_ident c : white c -> ~ ident_char c.
Proof. unfold white, ident_char, letter, digit. cbn [In]. intros. lia. Qed.

Lemma ws_not_ident (w r : text) : Forall white w -> not_ident r -> not_ident (w ++ r).
Proof. intros F N. destruct F; cbn; auto. apply white_not_ident; auto. Qed.

Lemma tstep_dot r : tstep true (t "." ++ r) = TS_tok REFLIST_DOT (t ".") true r.
Proof. reflexivity. Qed.
Lemma tstep_comma r : tstep true (t "," ++ r) = TS_tok REFLIST_COMMA (t ",") true r.
Proof. reflexivity. Qed.
Lemma tstep_close r : tstep true (t "]]" ++ r) = TS_tok REFLIST_END (t "]]") false r.
Proof. reflexivity. Qed.
Lemma tstep_open r : tstep false (t "[[" ++ r) = TS_tok REFLIST_BEGIN (t "[[") true r.
Proof. reflexivity. Qed.

Lemma mlexed_ws (w r : text) xs : Forall white w -> mlexed true r xs -> mlexed true (w ++ r) xs.
Proof.
  intros F M. inversion M; subst.
  - constructor. rewrite tstep_in; auto.
  - econstructor; [rewrite tstep_in; eauto|auto].
Qed.

(** From texts to tokens. *)
Lemma qualified_toks s x r xs : qualified s x -> not_ident r -> mlexed true r xs ->
  exists ts, tname ts x /\ mlexed true (s ++ r) (ts ++ xs).
Proof.
  intros Q N M. destruct Q as [w1 n w2 W1 I W2|w1 p w2 w3 n w4 W1 I1 W2 W3 I2 W4].
  - eexists. split; [apply tn_plain|]. rewrite <- !app_assoc. apply mlexed_ws; auto.
    eapply ml_tok; [apply tstep_ident; auto; apply ws_not_ident; auto|]. apply mlexed_ws; auto.
  - eexists. split; [apply (tn_dotted p (t ".") n)|]. rewrite <- !app_assoc. apply mlexed_ws; auto.
    eapply ml_tok; [apply tstep_ident; auto; apply ws_not_ident; auto; cbn; unfold ident_char, letter, digit; lia|].
    apply mlexed_ws; auto. eapply ml_tok; [apply tstep_dot|]. apply mlexed_ws; auto.
    eapply ml_tok; [apply tstep_ident; auto; apply ws_not_ident; auto|]. apply mlexed_ws; auto.
Qed.

Lemma name_list_toks b xs r vs : name_list b xs -> mlexed true (t "]]" ++ r) vs ->
  exists ts x us ys, tname ts x /\ tmore us ys /\ xs = x :: ys /\ mlexed true (b ++ t "]]" ++ r) (ts ++ us ++ vs).
Proof.
  intros NL M. induction NL as [s x Q|s x s' xs Q NL IH].
  - destruct (qualified_toks _ _ (t "]]" ++ r) vs Q) as (ts & T & ML); auto.
    { cbn. unfold ident_char, letter, digit. lia. }
    exists ts, x, [], []. repeat split; auto. constructor.
  - destruct IH as (ts' & x' & us' & ys' & T' & TM & -> & ML').
    destruct (qualified_toks _ _ (t "," ++ s' ++ t "]]" ++ r) ((REFLIST_COMMA, t ",") :: ts' ++ us' ++ vs) Q) as (ts & T & ML).
    { cbn. unfold ident_char, letter, digit. lia. }
    { eapply ml_tok; [apply tstep_comma|auto]. }
    exists ts, x, ((REFLIST_COMMA, t ",") :: ts' ++ us'), (x' :: ys'). split; [auto|]. split; [constructor; auto|].
    split; [auto|]. rewrite <- !app_assoc. cbn [app]. rewrite <- !app_assoc. exact ML.
Qed.

Lemma hd_is_spec c d (r : text) : (c =? d)%N && hd_is d r = true <-> begins [d; d] (c :: r).
Proof.
  unfold hd_is, begins. split.
  - intros H. apply andb_true_iff in H as [H1 H2]. apply N.eqb_eq in H1. destruct r as [|x r]; [discriminate|].
    cbn in H2. apply N.eqb_eq in H2. subst. exists r. auto.
  - intros (r' & E). injection E as -> ->. cbn. rewrite N.eqb_refl. auto.
Qed.

Lemma markup_toks s xs : markup s xs -> exists ts, mlexed false s ts /\ tgram ts xs.
Proof.
  induction 1 as [|c s xs N1 N2 M (ts & ML & T)|b s xs ys NL M (ts & ML & T)].
  - exists []. split; constructor. auto.
  - exists ((CHARACTER, [c]) :: ts). split; [|constructor; auto]. eapply ml_tok; eauto.
    unfold tstep. pose proof (hd_is_spec c 91 s) as H1. pose proof (hd_is_spec c 93 s) as H2.
    change (t "[[") with [91%N; 91%N] in N1. change (t "]]") with [93%N; 93%N] in N2.
    destruct ((c =? 91)%N && hd_is 91 s); [exfalso; tauto|].
    destruct ((c =? 93)%N && hd_is 93 s); [exfalso; tauto|]. auto.
  - destruct (name_list_toks b xs s ((REFLIST_END, t "]]") :: ts) NL) as (ts' & x & us & ys' & T1 & T2 & -> & ML').
    { eapply ml_tok; [apply tstep_close|auto]. }
    eexists. split; [eapply ml_tok; [apply tstep_open|exact ML']|]. cbn. constructor; auto.
Qed.

(** From tokens to texts. *)
Lemma tstep_in_inv r k x b' r' : tstep true r = TS_tok k x b' r' ->
  exists w, Forall white w /\ r = w ++ x ++ r' /\
    ((k = REFLIST_END /\ x = t "]]" /\ b' = false) \/ (k = REFLIST_COMMA /\ x = t "," /\ b' = true) \/
     (k = REFLIST_DOT /\ x = t "." /\ b' = true) \/
     (k = REFLIST_IDENTIFIER /\ mident x /\ not_ident r' /\ b' = true)).
Proof.
  unfold tstep. destruct (span is_space r) as [w r1] eqn:S.
  pose proof (span_all _ _ _ _ S) as SA. apply span_app in S. subst r. cbn [snd].
  assert (W : Forall white w).
  { rewrite Forall_forall. intros c I. apply is_space_white. rewrite forallb_forall in SA. auto. }
  destruct r1 as [|c r2]; [discriminate|]. pose proof (hd_is_spec c 93 r2) as H2.
  destruct ((c =? 91)%N && hd_is 91 r2); [discriminate|].
  destruct ((c =? 93)%N && hd_is 93 r2).
  { intros E. inv E. exists w. split; [auto|]. destruct H2 as [H2 _]. destruct (H2 eq_refl) as (q & E). injection E as -> ->.
    cbn [tl]. split; [auto|]. left. auto. }
  cbn [negb]. destruct (c =? 44)%N eqn:C1.
  { intros E. inv E. apply N.eqb_eq in C1. subst. exists w. split; [auto|]. split; [auto|]. right. left. auto. }
  destruct (c =? 46)%N eqn:C2.
  { intros E. inv E. apply N.eqb_eq in C2. subst. exists w. split; [auto|]. split; [auto|]. right. right. left. auto. }
  destruct (is_alpha c) eqn:A; [|discriminate].
  destruct (span ident_c r2) as [a rest] eqn:SP. intros E. inv E.
  pose proof (span_all _ _ _ _ SP) as SA2. pose proof (span_stop _ _ _ _ SP) as SS. apply span_app in SP. subst r2.
  exists w. split; [auto|]. split; [auto|]. right. right. right. split; [auto|]. split.
  { exists c, a. split; [auto|]. split; [apply is_alpha_letter; auto|]. rewrite Forall_forall. intros d I.
    apply is_ident_char. rewrite forallb_forall in SA2. apply SA2; auto. }
  split; [|auto]. destruct r' as [|d r']; cbn; auto. intros X. apply is_ident_char in X. fold (ident_c d) in X. congruence.
Qed.

Lemma mlexed_tok_inv b r k x xs : mlexed b r ((k, x) :: xs) -> exists b' r', tstep b r = TS_tok k x b' r' /\ mlexed b' r' xs.
Proof. intros M. inversion M; subst. eauto. Qed.

Lemma tname_text ts x xs r : tname ts x -> mlexed true r (ts ++ xs) ->
  exists s r', r = s ++ r' /\ mlexed true r' xs /\ forall w, Forall white w -> qualified (s ++ w) x.
Proof.
  intros T M. destruct T as [n|p d n]; cbn in M.
  - apply mlexed_tok_inv in M as (b1 & r1 & S1 & M). apply tstep_in_inv in S1 as (w & W & -> & C).
    destruct C as [(?&?&?)|[(?&?&?)|[(?&?&?)|(_ & I & N & ->)]]]; try discriminate.
    exists (w ++ n), r1. rewrite <- app_assoc. split; [auto|]. split; [auto|]. intros w2 W2. rewrite <- app_assoc.
    apply q_plain; auto.
  - apply mlexed_tok_inv in M as (b1 & r1 & S1 & M). apply tstep_in_inv in S1 as (w1 & W1 & -> & C).
    destruct C as [(?&?&?)|[(?&?&?)|[(?&?&?)|(_ & I1 & N1 & ->)]]]; try discriminate.
    apply mlexed_tok_inv in M as (b2 & r2 & S2 & M). apply tstep_in_inv in S2 as (w2 & W2 & -> & C).
    destruct C as [(?&?&?)|[(?&?&?)|[(_&->&->)|(? & _)]]]; try discriminate.
    apply mlexed_tok_inv in M as (b3 & r3 & S3 & M). apply tstep_in_inv in S3 as (w3 & W3 & -> & C).
    destruct C as [(?&?&?)|[(?&?&?)|[(?&?&?)|(_ & I2 & N2 & ->)]]]; try discriminate.
    exists (w1 ++ p ++ w2 ++ t "." ++ w3 ++ n), r3. rewrite <- !app_assoc. split; [auto|]. split; [auto|].
    intros w4 W4. rewrite <- !app_assoc. apply q_dotted; auto.
Qed.

Lemma tmore_text us xs : tmore us xs -> forall ts x c vs r, tname ts x ->
  mlexed true r (ts ++ us ++ (REFLIST_END, c) :: vs) ->
  exists b r', r = b ++ t "]]" ++ r' /\ name_list b (x :: xs) /\ mlexed false r' vs.
Proof.
  induction 1 as [|c0 ts0 x0 us xs T0 TM IH]; intros ts x c vs r T M.
  - destruct (tname_text _ _ _ _ T M) as (s & r1 & -> & M1 & Q). cbn in M1.
    apply mlexed_tok_inv in M1 as (b1 & r2 & S1 & M1). apply tstep_in_inv in S1 as (w & W & -> & C).
    destruct C as [(_&->&->)|[(?&?&?)|[(?&?&?)|(? & _)]]]; try discriminate.
    exists (s ++ w), r2. rewrite <- !app_assoc. split; [auto|]. split; [|auto]. apply nl_one. auto.
  - destruct (tname_text _ _ _ _ T M) as (s & r1 & -> & M1 & Q). cbn in M1.
    apply mlexed_tok_inv in M1 as (b1 & r2 & S1 & M1). apply tstep_in_inv in S1 as (w & W & -> & C).
    destruct C as [(?&?&?)|[(_&->&->)|[(?&?&?)|(? & _)]]]; try discriminate.
    rewrite <- app_assoc in M1. destruct (IH _ _ _ _ _ T0 M1) as (b & r' & -> & NL & M2).
    exists ((s ++ w) ++ t "," ++ b), r'. rewrite <- !app_assoc. split; [auto|]. split; [|auto].
    rewrite app_assoc. apply nl_more; auto.
Qed.

Lemma tstep_out_inv r k x b' r' : tstep false r = TS_tok k x b' r' ->
  (k = CHARACTER /\ b' = false /\ exists c, r = c :: r' /\ ~ begins (t "[[") r /\ ~ begins (t "]]") r) \/
  (k = REFLIST_BEGIN /\ b' = true /\ r = t "[[" ++ r').
Proof.
  unfold tstep. destruct r as [|c r2]; [discriminate|].
  pose proof (hd_is_spec c 91 r2) as H1. pose proof (hd_is_spec c 93 r2) as H2.
  destruct ((c =? 91)%N && hd_is 91 r2).
  { intros E. inv E. right. destruct H1 as [H1 _]. destruct (H1 eq_refl) as (q & E). injection E as -> ->. auto. }
  destruct ((c =? 93)%N && hd_is 93 r2); [discriminate|]. cbn [negb]. intros E. inv E. left. split; [auto|]. split; [auto|].
  exists c. split; [auto|]. split; intros B; [apply H1 in B|apply H2 in B]; discriminate.
Qed.

Lemma toks_markup ts xs : tgram ts xs -> forall s, mlexed false s ts -> markup s xs.
Proof.
  induction 1 as [|c ts xs T IH|o c ts x us xs vs ys T1 T2 T3 IH]; intros s M.
  - inversion M; subst. destruct s as [|c s]; [constructor|]. exfalso.
    match goal with H : tstep _ _ = _ |- _ => rename H into E end. unfold tstep in E.
    destruct ((c =? 91)%N && hd_is 91 s); [discriminate|]. destruct ((c =? 93)%N && hd_is 93 s); discriminate.
  - apply mlexed_tok_inv in M as (b1 & r1 & S1 & M). apply tstep_out_inv in S1 as [(_ & -> & d & -> & B1 & B2)|(? & _)]; [|discriminate].
    apply mu_char; auto.
  - apply mlexed_tok_inv in M as (b1 & r1 & S1 & M). apply tstep_out_inv in S1 as [(? & _)|(_ & -> & ->)]; [discriminate|].
    destruct (tmore_text _ _ T2 _ _ _ _ _ T1 M) as (b & r' & -> & NL & M').
    change (x :: xs ++ ys) with ((x :: xs) ++ ys). apply mu_list; auto.
Qed.

(** ** Whole strings *)

Lemma references_spec n origin qual (ok_loc : sref -> Prop) :
  (forall b e line col, 0 <= b <= e -> e < Z.of_nat (length (ns_content n)) ->
     located (ns_content n) (Z.to_nat b) line col ->
     exists l, source_location n line col b e = Some l /\ ok_loc l) ->
  ok_loc origin ->
  let r := let (ts, e) := mtokens n in parse_tokens e origin qual ts in
  match r with
  | Ok rs => Forall (fun r => ok_loc (mr_loc r)) rs /\ markup (ns_content n) (map ref_name rs) /\
             Forall (qual_ok qual) (map ref_name rs)
  | Err (_, l) => ok_loc l /\ forall xs, markup (ns_content n) xs -> ~ Forall (qual_ok qual) xs
  | Crash | OutOfFuel => False
  end.
Proof.
  intros LO OO. cbn zeta. unfold mtokens.
  assert (LO' : forall b e line col, 0 <= b <= e -> e < Z.of_nat (length (ns_content n)) ->
     located (ns_content n) (Z.to_nat b) line col -> source_location n line col b e <> None).
  { intros b e line col H1 H2 H3. destruct (LO b e line col H1 H2 H3) as (l & -> & _). discriminate. }
  assert (TO : forall b e line col l, 0 <= b <= e -> e < Z.of_nat (length (ns_content n)) ->
     located (ns_content n) (Z.to_nat b) line col -> source_location n line col b e = Some l -> ok_loc l).
  { intros b e line col l H1 H2 H3 H4. destruct (LO b e line col H1 H2 H3) as (l' & E & O). congruence. }
  pose proof (mstream_spec n LO' (fuel (ns_content n)) false (init (ns_content n)) (wf_init _)) as MS.
  rewrite R_init in MS. specialize (MS ltac:(unfold fuel; lia)).
  destruct (mstream n (fuel (ns_content n)) false (init (ns_content n))) as [ts e].
  destruct MS as (F & TE & _ & S1 & S2).
  pose proof (parse_tokens_spec e origin qual ok_loc) as PT.
  specialize (PT ltac:(destruct e; cbn in TE; auto; destruct TE as (? & ? & ? & ? & ? & ? & ? & ?); eauto) OO ts).
  assert (FL : Forall (fun tk => ok_loc (mt_loc tk)) ts).
  { rewrite Forall_forall in *. intros tk I. destruct (F tk I) as (? & ? & ? & ? & ?). eauto. }
  specialize (PT FL). destruct (parse_tokens e origin qual ts) as [rs|[m l]| |]; auto.
  - destruct PT as (P1 & P2 & P3 & P4). split; [auto|]. split; [|auto]. eapply toks_markup; eauto.
  - destruct PT as (P1 & P2). split; [auto|]. intros xs MU Q.
    destruct (markup_toks _ _ MU) as (kts & ML & T). destruct (S2 _ ML) as [-> <-]. eapply P2; eauto.
Qed.

Lemma mlexed_unique b r xs ys : mlexed b r xs -> mlexed b r ys -> xs = ys.
Proof.
  intros M. revert ys. induction M as [b r E|b r k x b' r' xs E M IH]; intros ys M'; inversion M'; subst; try congruence.
  rewrite E in *. match goal with H : TS_tok _ _ _ _ = TS_tok _ _ _ _ |- _ => injection H as <- <- <- <- end.
  f_equal. auto.
Qed.

Lemma tgram_unique ts xs ys : tgram ts xs -> tgram ts ys -> xs = ys.
Proof.
  intros T. revert ys. induction T as [|c ts xs T IH|o c ts x us xs vs zs T1 T2 T3 IH]; intros ys T'.
  - inversion T'; auto.
  - inversion T'; subst; auto.
  - apply tgram_list_inv in T' as (ts' & x' & us' & ys' & c' & ws & zs' & T4 & T5 & T6 & -> & E).
    destruct (list_unique _ _ _ _ _ _ _ _ _ _ _ _ T1 T2 T4 T5 E) as (-> & -> & ->).
    rewrite (IH zs'); auto.
Qed.

Lemma markup_unique s xs ys : markup s xs -> markup s ys -> xs = ys.
Proof.
  intros M1 M2. destruct (markup_toks _ _ M1) as (ts1 & L1 & T1). destruct (markup_toks _ _ M2) as (ts2 & L2 & T2).
  rewrite (mlexed_unique _ _ _ _ L1 L2) in T1. eapply tgram_unique; eauto.
Qed.
