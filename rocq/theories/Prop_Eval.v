(** Property theorems C22 to C28, C44 and C45: evaluation of checks. *)
From Coq Require Import Relations Qabs.
From Verif Require Import Base Lexer PyText MathModel Ast Eval TypesProofs Typing Soundness EvalSpec EvalSpecProofs EvalCorrect.
Open Scope Z_scope.

(** The standing assumptions on the declared types and objects: a type
    extends an earlier one, every object has a fitting value for each of its
    components, components of one type have distinct names. *)
Record sane (G : types) (W : world) : Prop := Sane {
  sn_order : wf_types G;
  sn_objects : wt_world G W;
  sn_rec : forall r, NoDup (map c_name (all_components G r));
  sn_tup : forall u ut, nth_error (tups G) u = Some ut -> NoDup (map c_name (u_comps ut))
}.

(** The checks of type [r] see its components; they are evaluated with the
    fields of the object. *)
Definition scope_of (G : types) (r : nat) : scope :=
  map (fun c => (c_name c, (c_typ c, c_opt c))) (all_components G r).
Definition dict (fs : list (text * field)) : list (text * vexpr) := map (fun '(k, (_, v)) => (k, v)) fs.

Lemma assoc_dict k fs : assoc k (dict fs) = option_map snd (assoc k fs).
Proof. induction fs as [|[k' [i v]] fs IH]; cbn; auto. destruct (text_eqb k' k); auto. Qed.
Lemma assoc_scope k (cs : list component) a o :
  assoc k (map (fun c => (c_name c, (c_typ c, c_opt c))) cs) = Some (a, o) ->
  exists c, In c cs /\ c_name c = k /\ c_typ c = a /\ c_opt c = o.
Proof.
  induction cs as [|c cs IH]; cbn; [discriminate|]. destruct (text_eqb (c_name c) k) eqn:E.
  - intros H. injection H as <- <-. apply text_eqb_eq in E. exists c. auto.
  - intros H. destruct (IH H) as (c' & I & R). exists c'. auto.
Qed.
(** ... so every accepted object is in the scope of the checks of its type. *)
Lemma object_scope G W ob : wt_object G W ob -> scope_ok G W (scope_of G (o_typ ob)) (dict (o_fields ob)).
Proof.
  intros (_ & H & _) n a o E. apply assoc_scope in E as (c & I & <- & <- & <-).
  destruct (H c I) as (id & v & E & F). exists v. rewrite assoc_dict, E. auto.
Qed.

(** ** C22 *)

(** Evaluation of a well-typed expression gives a value of its type, or null
    if the expression can be null, or reports an error.  A Python exception is
    possible only through an array index ([IndexError]) or a quantifier whose
    predicate can be null ([AssertionError]).  Missing for the full claim:
    these two, and unions with a field whose type differs in an extension
    (excluded by [wt true]); see the refutations below. *)
Theorem C22_well_typed_partial :
  forall G W S d e, sane G W -> wt G W true S e -> scope_ok G W S d ->
    match evaluate W (Some d) e with
    | Ok v => of_type G W (e_typ e) v /\ (v_val v = None -> maybe_null e = true)
    | Err (l, p) => internal p = true -> risky e p
    | Crash | OutOfFuel => False
    end.
Proof.
  intros G W S d e [H1 H2 H3 H4] T K.
  pose proof (soundness G W H1 H2 H3 H4 e S d T K) as A.
  pose proof (internal_errors G W H1 H2 H3 H4 e S d T K) as B.
  destruct (evaluate W (Some d) e) as [v|[l p]| |]; unfold good in A; auto. apply (B l p); auto.
Qed.
Print Assumptions C22_well_typed_partial.

(** Without array indexing, and with predicates that cannot be null, there is
    no Python exception at all. *)
Theorem C22_no_exception_partial :
  forall G W S d e, sane G W -> wt G W true S e -> scope_ok G W S d ->
    (forall l a x y, ~ sub (EBinary l a B_index x y) e) ->
    (forall l un v ls src body, sub (EQuant l un v ls src body) e -> maybe_null body = false) ->
    (exists v, evaluate W (Some d) e = Ok v /\ of_type G W (e_typ e) v) \/
    (exists l p, evaluate W (Some d) e = Err (l, p) /\ internal p = false).
Proof.
  intros G W S d e Sn T K NI NQ. pose proof (C22_well_typed_partial G W S d e Sn T K) as A.
  destruct (evaluate W (Some d) e) as [v|[l p]| |]; try contradiction.
  - left. exists v. split; auto. apply A.
  - right. exists l, p. split; auto. destruct (internal p) eqn:I; auto. exfalso.
    destruct (A eq_refl) as [(_ & l' & a & x & y & H)|(_ & l' & un & v & ls & src & b & H & N)].
    + eapply NI; eauto.
    + specialize (NQ _ _ _ _ _ _ H). congruence.
Qed.
Print Assumptions C22_no_exception_partial.

(** *** An example program *)
Definition pl : loc := Loc 0 (Sref 1 1 0 0).
Definition ql : loc := Loc 0 (Sref 2 1 9 9).
Definition int_arr : ty := TArr 0 0 (Some 3) TInt.
Definition str_arr : ty := TArr 1 0 None TStr.
Definition un_ty : ty := TUnion 0 [1; 2]%nat.
Definition rc (n : text) (a : ty) (o : bool) : component := Comp n a o (TRec 0).
Definition pG : types := Types
  [RecType 0 (t "R") None
     [rc (t "n") TInt false; rc (t "q") TDec false; rc (t "flag") TBool true; rc (t "arr") int_arr false;
      rc (t "strs") str_arr false; rc (t "md") TMarkup false; rc (t "tup") (TTup 0) false;
      rc (t "e1") (TRec 1) false; rc (t "e2") (TRec 1) false; rc (t "un") un_ty false; rc (t "me") (TRec 0) false]
     [] false false [];
   RecType 0 (t "E") None [] [] false false [];
   RecType 0 (t "B") None [Comp (t "k") TInt false (TRec 2)] [] false false [];
   RecType 0 (t "E1") (Some 1%nat) [Comp (t "k") TStr false (TRec 3)] [] false false []]
  [TupType 0 (t "T") [Comp (t "a") TInt false (TTup 0); Comp (t "b") TInt true (TTup 0)] [Sep_colon] []]
  [].
Definition xint (z : Z) : vexpr := XLit ql (LInt z) [].
Definition xstr (s : text) : vexpr := XLit ql (LStr s false) [].
(** Objects: 0 [obj], 1 [ex] of type E1, 2 [bee] of type B, 3 [one] and 4
    [two] of type E. *)
Definition the_fields (un e2 : nat) : list (text * field) :=
  [(t "n", (0%nat, xint 7)); (t "q", (1%nat, XUnary ql (Some TDec) U_minus (XLit ql (LDec (1 # 2)) [])));
   (t "flag", (2%nat, XNull ql)); (t "arr", (3%nat, XArr ql int_arr [xint 5; xint (-2)]));
   (t "strs", (4%nat, XArr ql str_arr [xstr (t "foo")])); (t "md", (5%nat, XLit ql (LStr (t "foo") true) []));
   (t "tup", (6%nat, XTup ql 0 [(t "a", xint 1); (t "b", XNull ql)]));
   (t "e1", (7%nat, XRef ql (Some (TRec 1)) 0 (t "one") (Some 3%nat)));
   (t "e2", (8%nat, XRef ql (Some (TRec 1)) 0 (t "two") (Some e2)));
   (t "un", (9%nat, XRef ql (Some un_ty) 0 (t "x") (Some un)));
   (t "me", (10%nat, XRef ql (Some (TRec 0)) 0 (t "obj") (Some 0%nat)))].
Definition objs (un e2 : nat) : list object :=
  [Object 0 (t "obj") ql 0 (the_fields un e2);
   Object 0 (t "ex") ql 3 [(t "k", (11%nat, xstr (t "3")))];
   Object 0 (t "bee") ql 2 [(t "k", (12%nat, xint 3))];
   Object 0 (t "one") ql 1 []; Object 0 (t "two") ql 1 []].
Definition rx (p s : text) : option bool := Some (starts_with p s).
(** The normal one; one where the union refers to [ex]; one where [e2] refers
    to [two]. *)
Definition pW : world := World (removelast (objs 2 3)) rx.
Definition pW_ex : world := World (removelast (objs 1 3)) rx.
Definition pW_two : world := World (objs 2 4) rx.
Definition pd : list (text * vexpr) := dict (the_fields 2 3).
Definition pS : scope := scope_of pG 0.
Definition nm (n : text) : expr :=
  match assoc n pS with Some (a, o) => EName pl a n false o | None => ENull pl end.
Definition num (z : Z) : expr := ELit pl (LInt z).
Definition bool_op (op : binop) (a b : expr) : expr := EBinary pl (Some TBool) op a b.

Ltac refl_trans :=
  solve [apply rt_refl | apply rt_step; eexists; split; reflexivity].
Ltac stored :=
  match goal with
  | |- fits _ _ _ _ (XNull _) => right; split; [reflexivity|eexists; reflexivity]
  | |- fits _ _ _ _ _ => left; stored
  | |- vt _ _ _ (XLit ?l ?k ?r) => exact (vt_lit _ _ l k r)
  | |- vt _ _ _ (XUnary _ _ _ _) => apply vt_sign; auto
  | |- vt _ _ _ (XArr _ _ _) =>
      apply vt_arr; let v := fresh "v" in let H := fresh "H" in intros v H; cbn in H;
      repeat match type of H with _ \/ _ => destruct H as [<-|H]; [stored|] end; contradiction H
  | |- vt _ _ _ (XTup _ _ _) => eapply vt_tup; [reflexivity|cbn [u_comps]; stored]
  | |- tup_fields _ _ (?c :: _) ((_, XNull _) :: _) => apply (tf_null _ _ c); [reflexivity|stored]
  | |- tup_fields _ _ (?c :: _) (_ :: _) => apply (tf_value _ _ c); [stored|stored]
  | |- tup_fields _ _ _ _ => apply tf_nil
  | |- vt _ _ (TRec _) _ => eapply vt_rec; [reflexivity|unfold fits_record; cbn; refl_trans]
  | |- vt _ _ (TUnion _ _) _ => eapply vt_union; [reflexivity|];
      first [exists 1%nat; split; [cbn; tauto|cbn; refl_trans]
            |exists 2%nat; split; [cbn; tauto|cbn; refl_trans]]
  end.
(** All components of a literal list *)
Ltac each H := cbn in H;
  repeat match type of H with _ \/ _ => destruct H as [H|H] | False => contradiction H end; try subst.

Lemma pG_order : wf_types pG.
Proof.
  intros r p (rt & E & P).
  destruct r as [|[|[|[|r]]]]; cbn in E; try (injection E as <-; cbn in P; try discriminate; injection P as <-; lia).
  destruct r; discriminate.
Qed.
Lemma pG_names r : NoDup (map c_name (all_components pG r)).
Proof.
  destruct r as [|[|[|[|r]]]]; try (apply distinct_nodup; vm_compute; reflexivity).
  unfold all_components, all_components_steps, rec. destruct r; cbn; constructor.
Qed.
Lemma pG_tup u ut : nth_error (tups pG) u = Some ut -> NoDup (map c_name (u_comps ut)).
Proof.
  destruct u as [|u]; cbn; [|destruct u; discriminate]. intros E. injection E as <-.
  apply distinct_nodup; vm_compute; reflexivity.
Qed.
Lemma assoc_in {A} k (l : list (text * A)) x : assoc k l = Some x -> In k (map fst l).
Proof.
  induction l as [|[k' y] l IH]; cbn; [discriminate|].
  destruct (text_eqb k' k) eqn:E1, (text_eqb k k') eqn:E2; auto;
    try (apply text_eqb_eq in E1; subst; auto); apply text_eqb_eq in E2; subst; auto.
Qed.
Ltac object :=
  let H := fresh in let c := fresh in let k := fresh in let f := fresh in
  split; [cbn; lia|split; [|split]];
  [intros c H; each H; eexists; eexists; (split; [vm_compute; reflexivity|]);
   match goal with |- fits ?G' ?W' ?a ?o ?v =>
     let a' := eval vm_compute in a in let o' := eval vm_compute in o in change (fits G' W' a' o' v) end; stored
  |intros k f H; apply assoc_in in H; 
   match type of H with In _ ?ks => match goal with |- exists c, In c ?cs /\ _ =>
     change ks with (map c_name cs) in H end end;
   apply in_map_iff in H; destruct H as (c & ? & ?); eexists; split; eauto
  |apply distinct_nodup; vm_compute; reflexivity].
Lemma pW_objects : wt_world pG pW.
Proof.
  intros o ob E.
  destruct o as [|[|[|[|o]]]]; cbn in E; try (destruct o; discriminate); injection E as <-; object.
Qed.
Lemma pW_ex_objects : wt_world pG pW_ex.
Proof.
  intros o ob E.
  destruct o as [|[|[|[|o]]]]; cbn in E; try (destruct o; discriminate); injection E as <-; object.
Qed.
Lemma pW_two_objects : wt_world pG pW_two.
Proof.
  intros o ob E.
  destruct o as [|[|[|[|[|o]]]]]; cbn in E; try (destruct o; discriminate); injection E as <-; object.
Qed.
Lemma pW_sane : sane pG pW. Proof. exact (Sane _ _ pG_order pW_objects pG_names pG_tup). Qed.
Lemma pW_ex_sane : sane pG pW_ex. Proof. exact (Sane _ _ pG_order pW_ex_objects pG_names pG_tup). Qed.
Lemma pW_two_sane : sane pG pW_two. Proof. exact (Sane _ _ pG_order pW_two_objects pG_names pG_tup). Qed.
Lemma pd_scope : scope_ok pG pW pS pd.
Proof. exact (object_scope pG pW _ (pW_objects 0%nat _ eq_refl)). Qed.

(** All proofs of [wt] for the examples *)
Ltac typed :=
  match goal with
  | |- wt _ _ _ _ (nm _) => cbv [nm pS]; apply wt_name; reflexivity
  | |- wt _ _ _ _ (EName _ _ _ _ _) => apply wt_name; reflexivity
  | |- wt _ _ _ _ (num _) => apply wt_lit
  | |- wt _ _ _ _ (ELit _ _) => apply wt_lit
  | |- wt _ _ _ _ (ENull _) => apply wt_null
  | |- wt _ _ _ _ (bool_op _ _ _) => unfold bool_op; typed
  | |- wt _ _ _ _ (EBinary _ _ _ _ _) =>
      first [eapply wt_logic; [cbn; tauto|reflexivity|reflexivity|typed|typed]
            |eapply wt_equal; [cbn; tauto|first [apply cp_null_l|apply cp_null_r|apply cp_same; reflexivity]|typed|typed]
            |eapply wt_order with (n := TInt); [cbn; tauto|cbn; tauto|reflexivity|reflexivity|typed|typed]
            |eapply wt_order with (n := TDec); [cbn; tauto|cbn; tauto|reflexivity|reflexivity|typed|typed]
            |eapply wt_arith with (n := TInt); [cbn; tauto|cbn; tauto|reflexivity|reflexivity|typed|typed]
            |eapply wt_member; [reflexivity|reflexivity|reflexivity|typed|typed]
            |eapply wt_index; [reflexivity|reflexivity|typed|typed]]
  | |- wt _ _ _ _ (EField _ _ _ false _) =>
      first [eapply wt_tup_field; [reflexivity|reflexivity|cbn; tauto|typed]
            |eapply wt_rec_field; [reflexivity|cbn; tauto|typed]]
  | |- wt _ _ _ _ (EUnary _ _ U_not _) => eapply wt_not; [reflexivity|typed]
  | |- wt _ _ _ _ (EUnary _ _ U_arrlen _) => eapply wt_arrlen; [reflexivity|typed]
  | |- wt _ _ _ _ (EQuant _ _ _ _ _ _) => eapply wt_quant; [reflexivity|reflexivity|reflexivity|typed]
  | |- wt _ _ _ _ (EOneof _ _) => let H := fresh in
      apply wt_oneof; intros ? H; each H; try reflexivity; typed
  | |- wt _ _ _ _ (ERange _ _ _ _) =>
      eapply wt_range with (n := TInt); [cbn; tauto|reflexivity|reflexivity|reflexivity|typed|typed|typed]
  | |- wt _ _ _ _ (ECond _ _ _) => let H := fresh in
      eapply wt_cond; [discriminate|intros ? ? H; each H; injection H as <- <-; split; reflexivity|reflexivity
                      |intros ? ? H; each H; injection H as <- <-; split; typed|typed]
  end.

Definition var (a : ty) (n : text) : expr := EName pl a n true false.
Definition src (n : text) : component :=
  match assoc n pS with Some (a, o) => rc n a o | None => rc n TInt false end.
(** forall i in arr => 0 < i + n or tup.a == len(arr) *)
Definition check_ex : expr :=
  EQuant pl true (t "i") pl (src (t "arr"))
    (bool_op B_or (bool_op B_lt (num 0) (EBinary pl (Some TInt) B_plus (var TInt (t "i")) (nm (t "n"))))
       (bool_op B_eq (EField pl (Comp (t "a") TInt false (TTup 0)) (nm (t "tup")) false false)
          (EUnary pl (Some TInt) U_arrlen (nm (t "arr"))))).
Example C22_ex :
  wt pG pW true pS check_ex /\ scope_ok pG pW pS pd /\
  evaluate pW (Some pd) check_ex = Ok (Val pl (Some (PBool true, TBool))).
Proof. split; [unfold check_ex, var; typed|]. split; [exact pd_scope|vm_compute; reflexivity]. Qed.

(** Index [len(arr)] of an array that may have one more element. *)
Definition index_ex : expr :=
  EBinary pl (Some TInt) B_index (nm (t "arr")) (EUnary pl (Some TInt) U_arrlen (nm (t "arr"))).
Theorem C22_index_refuted :
  exists G W S d e l, sane G W /\ wt G W true S e /\ scope_ok G W S d /\
    evaluate W (Some d) e = Err (l, P_index_error).
Proof.
  exists pG, pW, pS, pd, index_ex, pl. split; [exact pW_sane|]. split; [unfold index_ex; typed|].
  split; [exact pd_scope|vm_compute; reflexivity].
Qed.
Print Assumptions C22_index_refuted.

(** [forall i in arr => flag] where flag is optional and missing. *)
Definition null_pred_ex : expr := EQuant pl true (t "i") pl (src (t "arr")) (nm (t "flag")).
Theorem C22_null_predicate_refuted :
  exists G W S d e l, sane G W /\ wt G W true S e /\ scope_ok G W S d /\
    evaluate W (Some d) e = Err (l, P_assert_bool).
Proof.
  exists pG, pW, pS, pd, null_pred_ex, pl. split; [exact pW_sane|]. split; [|split; [exact pd_scope|vm_compute; reflexivity]].
  unfold null_pred_ex. eapply wt_quant; [reflexivity|reflexivity|reflexivity|apply wt_name; reflexivity].
Qed.
Print Assumptions C22_null_predicate_refuted.

(** Union [E | B]: B has an Integer [k]; the extension E1 of E has a String
    [k].  [0 < un.k] passes the static rules and fails. *)
Definition union_ex : expr :=
  bool_op B_lt (num 0) (EField pl (Comp (t "k") TInt false (TRec 2)) (nm (t "un")) true false).
Theorem C22_union_refuted :
  exists G W S d e, sane G W /\ wt G W false S e /\ scope_ok G W S d /\ evaluate W (Some d) e = Crash.
Proof.
  exists pG, pW_ex, pS, (dict (the_fields 1 3)), union_ex. split; [exact pW_ex_sane|]. split.
  - unfold union_ex, bool_op. eapply wt_order with (n := TInt); [cbn; tauto|cbn; tauto|reflexivity|reflexivity|typed|].
    eapply wt_union_field; [reflexivity|vm_compute; reflexivity|reflexivity|reflexivity|reflexivity|discriminate|typed].
  - split; [|vm_compute; reflexivity]. exact (object_scope pG pW_ex _ (pW_ex_objects 0%nat _ eq_refl)).
Qed.
Print Assumptions C22_union_refuted.

(** The parser evaluates exponents and patterns without an object; a
    quantifier inside fails there. *)
Theorem C22_static_refuted :
  exists G W S e l, sane G W /\ wt G W true S e /\ evaluate W None e = Err (l, P_no_context).
Proof.
  exists pG, pW, pS, check_ex, pl. split; [exact pW_sane|]. split; [unfold check_ex, var; typed|reflexivity].
Qed.
Print Assumptions C22_static_refuted.

(** ** C23 *)

(** An operand with a truth value *)
Definition yields (W : world) (ctx : context) (e : expr) (b : bool) : Prop :=
  exists v a, evaluate W ctx e = Ok v /\ v_val v = Some (PBool b, a).

(** The right side is not looked at if the left side decides, whatever it is;
    otherwise the result is the result of the right side. *)
Theorem C23_short_circuit :
  forall W ctx l e, let T := Some TBool in
    (yields W ctx e false ->
       (forall f, yields W ctx (EBinary l T B_and e f) false) /\
       (forall f, evaluate W ctx (EBinary l T B_or e f) = evaluate W ctx f) /\
       (forall f, yields W ctx (EBinary l T B_implies e f) true)) /\
    (yields W ctx e true ->
       (forall f, evaluate W ctx (EBinary l T B_and e f) = evaluate W ctx f) /\
       (forall f, yields W ctx (EBinary l T B_or e f) true) /\
       (forall f, evaluate W ctx (EBinary l T B_implies e f) = evaluate W ctx f)).
Proof.
  intros W ctx l e T. split; intros (v & a & E & V); (split; [|split]); intros f; unfold yields; cbn; rewrite E; cbn; rewrite V; cbn;
    try reflexivity; do 2 eexists; (split; [reflexivity|]); eauto; reflexivity.
Qed.
Print Assumptions C23_short_circuit.

Theorem C23_truth_table :
  forall W ctx l e f x y, let T := Some TBool in
    yields W ctx e x -> yields W ctx f y ->
    yields W ctx (EBinary l T B_and e f) (x && y) /\
    yields W ctx (EBinary l T B_or e f) (x || y) /\
    yields W ctx (EBinary l T B_implies e f) (negb x || y) /\
    yields W ctx (EBinary l T B_xor e f) (xorb x y) /\
    yields W ctx (EUnary l T U_not e) (negb x).
Proof.
  intros W ctx l e f x y T (v & a & E & V) (w & b & F & U).
  repeat split; unfold yields; cbn; rewrite ?E, ?F; cbn; unfold eval_unary; rewrite ?V, ?U; cbn; destruct x, y; cbn;
    rewrite ?E, ?F; cbn; rewrite ?V, ?U; cbn; do 2 eexists; (split; [reflexivity|]); cbn; eauto; reflexivity.
Qed.
Print Assumptions C23_truth_table.

(** If the left side fails so does the whole, at the same place. *)
Theorem C23_left_error :
  forall W ctx l e f op x, In op [B_and; B_or; B_implies] -> evaluate W ctx e = Err x ->
    evaluate W ctx (EBinary l (Some TBool) op e f) = Err x.
Proof. intros W ctx l e f op x I E. cbn. rewrite E. reflexivity. Qed.
Print Assumptions C23_left_error.

(** [n < 0 and 1 / 0 == n]: no division by zero is reported. *)
Definition div0 : expr := bool_op B_eq (EBinary pl (Some TInt) B_div (num 1) (num 0)) (nm (t "n")).
Example C23_ex :
  wt pG pW true pS (bool_op B_and (bool_op B_lt (nm (t "n")) (num 0)) div0) /\
  yields pW (Some pd) (bool_op B_lt (nm (t "n")) (num 0)) false /\
  evaluate pW (Some pd) (bool_op B_and (bool_op B_lt (nm (t "n")) (num 0)) div0) =
    Ok (Val pl (Some (PBool false, TBool))) /\
  evaluate pW (Some pd) div0 = Err (pl, P_division_by_zero).
Proof.
  split; [unfold div0; typed|]. split; [do 2 eexists; split; vm_compute; reflexivity|]. split; vm_compute; reflexivity.
Qed.

(** ** C24 *)

(** [p] says for which elements the predicate holds. *)
Theorem C24_quantifiers :
  forall W d l un var ls src body l' a vs (p : vexpr -> bool),
    assoc (c_name src) d = Some (XArr l' a vs) ->
    (forall v, In v vs -> yields W (Some ((var, v) :: d)) body (p v)) ->
    exists b, yields W (Some d) (EQuant l un var ls src body) b /\
      (un = true -> (b = true <-> forall v, In v vs -> p v = true)) /\
      (un = false -> (b = true <-> exists v, In v vs /\ p v = true)).
Proof.
  intros W d l un var ls src body l' a vs p E. unfold yields. cbn. rewrite E. clear E.
  induction vs as [|v vs IH]; intros H.
  - exists un. split; [do 2 eexists; split; reflexivity|]. split; intros ->; split; [intros _ ? []|auto|discriminate|intros (? & [] & _)].
  - destruct (H v (or_introl eq_refl)) as (r & x & Ev & V). rewrite Ev. cbn. rewrite V.
    destruct (IH (fun y I => H y (or_intror I))) as (b & Y & U1 & U2). destruct un, (p v) eqn:P; cbn.
    + exists b. split; auto. split; [|discriminate]. intros _. rewrite U1 by auto. split.
      * intros A z [<-|I]; auto.
      * intros A z I. apply A. right; exact I.
    + exists false. split; [do 2 eexists; split; reflexivity|]. split; [|discriminate]. intros _. split; [discriminate|].
      intros A. rewrite <- P. apply A. left; reflexivity.
    + exists true. split; [do 2 eexists; split; reflexivity|]. split; [discriminate|]. intros _. split; [|reflexivity].
      intros _. exists v. split; [left; reflexivity|exact P].
    + exists b. split; auto. split; [discriminate|]. intros _. rewrite U2 by auto. split.
      * intros (z & I & A). exists z. split; [right; exact I|exact A].
      * intros (z & [<-|I] & A); [congruence|]. exists z. auto.
Qed.
Print Assumptions C24_quantifiers.

Theorem C24_empty :
  forall W d l un var ls src body l' a, assoc (c_name src) d = Some (XArr l' a []) ->
    yields W (Some d) (EQuant l un var ls src body) un.
Proof. intros W d l un v ls s b l' a E. unfold yields. cbn. rewrite E. do 2 eexists; split; reflexivity. Qed.
Print Assumptions C24_empty.

(** The elements after the deciding one do not matter, even if the predicate
    fails there. *)
Theorem C24_stops :
  forall W d l (un : bool) var ls src body l' a pre v post,
    assoc (c_name src) d = Some (XArr l' a (pre ++ v :: post)) ->
    (forall x, In x pre -> yields W (Some ((var, x) :: d)) body un) ->
    yields W (Some ((var, v) :: d)) body (negb un) ->
    yields W (Some d) (EQuant l un var ls src body) (negb un).
Proof.
  intros W d l un var ls src body l' a pre v post E. unfold yields. cbn. rewrite E. clear E.
  induction pre as [|x pre IH]; intros H (r & y & Ev & V).
  - cbn. rewrite Ev. cbn. rewrite V. destruct un; cbn; do 2 eexists; split; reflexivity.
  - cbn. destruct (H x (or_introl eq_refl)) as (r' & y' & Ev' & V'). rewrite Ev'. cbn. rewrite V'.
    destruct un; cbn; (apply IH; [|eauto]); intros z I; apply H; right; auto.
Qed.
Print Assumptions C24_stops.

Example C24_ex :
  let all := EQuant pl true (t "i") pl (src (t "arr")) (bool_op B_lt (num 0) (var TInt (t "i"))) in
  let some := EQuant pl false (t "i") pl (src (t "arr")) (bool_op B_lt (num 0) (var TInt (t "i"))) in
  assoc (c_name (src (t "arr"))) pd = Some (XArr ql int_arr [xint 5; xint (-2)]) /\
  (forall v, In v [xint 5; xint (-2)] ->
     yields pW (Some ((t "i", v) :: pd)) (bool_op B_lt (num 0) (var TInt (t "i")))
       match v with XLit _ (LInt z) _ => 0 <? z | _ => false end) /\
  evaluate pW (Some pd) all = Ok (Val ql (Some (PBool false, TBool))) /\
  evaluate pW (Some pd) some = Ok (Val ql (Some (PBool true, TBool))).
Proof.
  intros all some. split; [vm_compute; reflexivity|]. split; [|split; vm_compute; reflexivity].
  intros v H. each H; do 2 eexists; split; vm_compute; reflexivity.
Qed.

(** ** C25 *)

(** Every value has a meaning. *)
Lemma den_total G W a p : pt G W a p -> exists s, den W p s.
Proof.
  revert a. induction p using pval_ind2; intros ty P; inversion P; subst.
  - exists (SInt z); reflexivity.
  - exists (SDec q); apply Qeq_refl.
  - exists (SStr s); reflexivity.
  - exists (SStr s); reflexivity.
  - exists (SBool b); reflexivity.
  - exists (SEnum e n); split; reflexivity.
  - match goal with I : forall v, In v vs -> exists p, _ |- _ => rename I into Hv end.
    assert (X : exists xs, Forall2 (fun v x => oden W v (Some x)) vs xs).
    { clear P. induction vs as [|v vs IH]; [exists []; constructor|].
      destruct IH as (xs & F); [intros; eapply H; eauto; right; eauto|intros; apply Hv; right; auto|].
      destruct (Hv v (or_introl eq_refl)) as (q & E & Pq). destruct (H v q el (or_introl eq_refl) E _ Pq) as (s & D).
      exists (s :: xs). constructor; auto. unfold oden. rewrite E. exact D. }
    destruct X as (xs & F). exists (SArr xs). apply den_arr. exact F.
  - match goal with I : pt_fields _ _ _ vs |- _ => rename I into F end.
    assert (X : exists xs, Forall2 (fun v x => fst v = fst x /\ oden W (snd v) (snd x)) vs xs).
    { clear P. revert H F. generalize (u_comps ut). induction vs as [|[k v] vs IH]; intros cs H F; [exists []; constructor|].
      inversion F; subst.
      - destruct (IH cs0) as (xs & F'); [intros; eapply H; eauto; right; eauto|auto|].
        match goal with E : v_val v = Some (?q, _), Pq : pt _ _ _ ?q |- _ =>
          destruct (H _ _ _ _ (or_introl eq_refl) E _ Pq) as (s & D);
          exists ((c_name c, Some s) :: xs); constructor; auto; split; auto; unfold oden; cbn; rewrite E; exact D end.
      - destruct (IH cs0) as (xs & F'); [intros; eapply H; eauto; right; eauto|auto|].
        exists ((c_name c, None) :: xs). constructor; auto. split; auto. unfold oden. cbn.
        match goal with N : v_val v = None |- _ => rewrite N end. exact I. }
    destruct X as (xs & F'). exists (STup xs). apply den_tup. exact F'.
  - exists (SObj o), ob. auto.
  - exists (SObj o), ob. auto.
Qed.
Lemma oden_total G W a v : of_type G W a v -> exists s, oden W v s.
Proof.
  unfold of_type, oden. destruct (v_val v) as [[p b]|]; [|exists None; exact I].
  intros [_ P]. destruct (den_total _ _ _ _ P) as (s & D). exists (Some s). exact D.
Qed.

(** [==] and [!=] of two operands that have values compare what these values
    stand for ([den] relates the two).  Missing for the full claim: objects
    that store the same values ([distinct_objects]), see below. *)
Theorem C25_equality_partial :
  forall G W S d l e f v w, sane G W -> distinct_objects W -> scope_ok G W S d ->
    wt G W true S (EBinary l (Some TBool) B_eq e f) ->
    evaluate W (Some d) e = Ok v -> evaluate W (Some d) f = Ok w ->
    exists s u b, oden W v s /\ oden W w u /\ (b = true <-> osame s u) /\
      yields W (Some d) (EBinary l (Some TBool) B_eq e f) b /\
      yields W (Some d) (EBinary l (Some TBool) B_neq e f) (negb b).
Proof.
  intros G W S d l e f v w [H1 H2 H3 H4] D K T E F.
  assert (X : comparable G (e_typ e) (e_typ f) /\ wt G W true S e /\ wt G W true S f).
  { inversion T; subst; auto;
      match goal with H : In B_eq _ |- _ => cbn in H; decompose [or] H; try discriminate; contradiction end. }
  destruct X as (C & Te & Tf).
  pose proof (soundness G W H1 H2 H3 H4 e S d Te K) as Ge. pose proof (soundness G W H1 H2 H3 H4 f S d Tf K) as Gf.
  rewrite E in Ge. rewrite F in Gf. destruct Ge as [Oe _], Gf as [Of _].
  destruct (oden_total _ _ _ _ Oe) as (s & Ds), (oden_total _ _ _ _ Of) as (u & Du).
  exists s, u, (opt_eq (v_val v) (v_val w)). split; auto. split; auto. split.
  - eapply (opt_eq_spec G W H2 H4 D); eauto.
  - unfold yields. cbn. rewrite E, F. cbn. split; do 2 eexists; split; reflexivity.
Qed.
Print Assumptions C25_equality_partial.

Lemma pW_distinct : distinct_objects pW.
Proof.
  intros o o' ob ob' E E' H.
  destruct o as [|[|[|[|o]]]]; cbn in E; try (destruct o; discriminate); injection E as <-;
    destruct o' as [|[|[|[|o']]]]; cbn in E'; try (destruct o'; discriminate); injection E' as <-; auto; exfalso;
    first [specialize (H (t "n")); vm_compute in H; discriminate|specialize (H (t "k")); vm_compute in H; discriminate].
Qed.
(** [me.tup == tup], [e1 == me.e2] *)
Definition me_field (n : text) : expr := EField pl (src n) (nm (t "me")) false false.
Example C25_ex :
  wt pG pW true pS (bool_op B_eq (me_field (t "tup")) (nm (t "tup"))) /\
  wt pG pW true pS (bool_op B_eq (nm (t "e1")) (me_field (t "e2"))) /\
  evaluate pW (Some pd) (bool_op B_eq (me_field (t "tup")) (nm (t "tup"))) = Ok (Val pl (Some (PBool true, TBool))) /\
  evaluate pW (Some pd) (bool_op B_neq (nm (t "e1")) (me_field (t "e2"))) = Ok (Val pl (Some (PBool false, TBool))).
Proof.
  split; [unfold me_field; typed|]. split; [unfold me_field; typed|]. split; vm_compute; reflexivity.
Qed.

(** References to two different objects without components are equal. *)
Theorem C25_reference_refuted :
  exists G W S d e f o o' v w, sane G W /\ scope_ok G W S d /\ wt G W true S (bool_op B_eq e f) /\
    sem W d e (Some (SObj o)) /\ sem W d f (Some (SObj o')) /\ o <> o' /\
    evaluate W (Some d) e = Ok v /\ evaluate W (Some d) f = Ok w /\
    yields W (Some d) (bool_op B_eq e f) true.
Proof.
  exists pG, pW_two, pS, (dict (the_fields 2 4)), (nm (t "e1")), (nm (t "e2")), 3%nat, 4%nat. do 2 eexists.
  split; [exact pW_two_sane|]. split; [exact (object_scope pG pW_two _ (pW_two_objects 0%nat _ eq_refl))|].
  split; [typed|]. split; [eapply sem_name; [reflexivity|apply st_ref]|].
  split; [eapply sem_name; [reflexivity|apply st_ref]|]. split; [discriminate|].
  split; [vm_compute; reflexivity|]. split; [vm_compute; reflexivity|].
  do 2 eexists. split; vm_compute; reflexivity.
Qed.
Print Assumptions C25_reference_refuted.

(** ** C26 *)

(** The number an operand stands for *)
Definition is_number (W : world) (ctx : context) (e : expr) (q : Q) : Prop :=
  exists v a, evaluate W ctx e = Ok v /\
    ((exists z, v_val v = Some (PInt z, a) /\ q = inject_Z z) \/ v_val v = Some (PFrac q, a)).
Definition is_text (W : world) (ctx : context) (e : expr) (s : text) : Prop :=
  exists v a, evaluate W ctx e = Ok v /\ v_val v = Some (PStr s, a).

Theorem C26_range :
  forall W ctx l e lo hi x y z, is_number W ctx e x -> is_number W ctx lo y -> is_number W ctx hi z ->
    exists b, yields W ctx (ERange l e lo hi) b /\ (b = true <-> (y <= x)%Q /\ (x <= z)%Q).
Proof.
  intros W ctx l e lo hi x y z (v1 & a1 & E1 & V1) (v2 & a2 & E2 & V2) (v3 & a3 & E3 & V3).
  exists (Qle_bool y x && Qle_bool x z)%bool. split; [|rewrite andb_true_iff, !Qle_bool_iff; tauto].
  assert (N : forall v a (q : Q), (exists n, v_val v = Some (PInt n, a) /\ q = inject_Z n) \/ v_val v = Some (PFrac q, a) ->
            exists p m, v_val v = Some (p, a) /\ as_num p = Some m /\ num_q m = q).
  { intros v a q [(n & H & ->)|H]; rewrite H; do 2 eexists; repeat split. }
  apply N in V1 as (p1 & m1 & V1 & A1 & Q1). apply N in V2 as (p2 & m2 & V2 & A2 & Q2). apply N in V3 as (p3 & m3 & V3 & A3 & Q3).
  unfold yields. cbn. rewrite E1. cbn. rewrite V1, E2. cbn. rewrite V2, E3. cbn. rewrite V3. unfold compare. rewrite A1, A2, A3.
  unfold num_le. rewrite Q1, Q2, Q3. cbn. destruct (Qle_bool y x); cbn; do 2 eexists; split; reflexivity.
Qed.
Print Assumptions C26_range.

(** The empty range *)
Theorem C26_empty_range :
  forall W ctx l e lo hi x y z, is_number W ctx e x -> is_number W ctx lo y -> is_number W ctx hi z -> (z < y)%Q ->
    yields W ctx (ERange l e lo hi) false.
Proof.
  intros W ctx l e lo hi x y z H1 H2 H3 L. destruct (C26_range W ctx l e lo hi x y z H1 H2 H3) as ([|] & Y & E); auto.
  destruct (proj1 E eq_refl) as [A B]. exfalso. apply (Qlt_irrefl y). apply Qle_lt_trans with z; auto. apply Qle_trans with x; auto.
Qed.
Print Assumptions C26_empty_range.

Theorem C26_substring :
  forall W ctx l e f s u, is_text W ctx e s -> is_text W ctx f u ->
    exists b, yields W ctx (EBinary l (Some TBool) B_contains e f) b /\ (b = true <-> exists p q, u = p ++ s ++ q).
Proof.
  intros W ctx l e f s u (v & a & E & V) (w & b & F & U). exists (is_substring s u). split; [|apply substring_spec].
  unfold yields. cbn. rewrite E. cbn. rewrite V, F. cbn. rewrite U. cbn. do 2 eexists; split; reflexivity.
Qed.
Print Assumptions C26_substring.

(** [x in array] where [x] has the element type.  Missing for the full claim:
    other types the static rules accept, see below. *)
Theorem C26_member_partial :
  forall G W S d l e f i lo hi el v w, sane G W -> distinct_objects W -> scope_ok G W S d ->
    wt G W true S (EBinary l (Some TBool) B_arrcontains e f) ->
    e_typ e = Some el -> e_typ f = Some (TArr i lo hi el) ->
    evaluate W (Some d) e = Ok v -> evaluate W (Some d) f = Ok w -> v_val v <> None -> v_val w <> None ->
    exists x ys b, oden W v (Some x) /\ oden W w (Some (SArr ys)) /\
      yields W (Some d) (EBinary l (Some TBool) B_arrcontains e f) b /\
      (b = true <-> exists y, In y ys /\ same y x).
Proof.
  intros G W S d l e f i lo hi el v w [H1 H2 H3 H4] D K T Te Tf E F Nv Nw.
  assert (X : wt G W true S e /\ wt G W true S f).
  { inversion T; subst; auto;
      match goal with H : In B_arrcontains _ |- _ => cbn in H; decompose [or] H; try discriminate; contradiction end. }
  destruct X as (We & Wf).
  pose proof (soundness G W H1 H2 H3 H4 e S d We K) as Ge. pose proof (soundness G W H1 H2 H3 H4 f S d Wf K) as Gf.
  rewrite E in Ge. rewrite F in Gf. destruct Ge as [Oe _], Gf as [Of _]. rewrite Te in Oe. rewrite Tf in Of.
  destruct (oden_total _ _ _ _ Oe) as (s & Ds), (oden_total _ _ _ _ Of) as (u & Du).
  pose proof Oe as Oe'. unfold of_type in Oe', Of. destruct (v_val v) as [[p a]|] eqn:V; [|congruence].
  destruct (v_val w) as [[q b]|] eqn:U; [|congruence]. destruct Oe' as [[= <-] P], Of as [[= <-] Q].
  unfold oden in Ds, Du. rewrite V in Ds. rewrite U in Du. destruct s as [s|]; [|contradiction]. destruct u as [u|]; [|contradiction].
  inversion Q; subst. destruct u as [ | | | | |ys| | ]; try contradiction.
  exists s, ys, (existsb (fun x => value_eq pval_eq x v) vs).
  split; [unfold oden; rewrite V; auto|]. split; [unfold oden; rewrite U; auto|]. split.
  - unfold yields. cbn. rewrite E. cbn. rewrite V, F. cbn. rewrite U. cbn. do 2 eexists; split; reflexivity.
  - rewrite existsb_exists. apply den_arr in Du.
    assert (Y : forall x y, In x vs -> oden W x (Some y) -> (value_eq pval_eq x v = true <-> same y s)).
    { intros x y I Dx. match goal with H : forall v, In v vs -> _ |- _ => destruct (H x I) as (p' & Vx & Px) end.
      apply (value_eq_spec G W x v el (Some y) (Some s)); auto.
      - intros p0 t0 _. eapply pval_eq_spec; eauto.
      - unfold of_type. rewrite Vx. auto.
      - unfold oden. rewrite V. auto. }
    split.
    + intros (x & I & Q'). destruct (Forall2_in _ _ _ _ Du I) as (y & Iy & Dy). exists y. split; auto. eapply Y; eauto.
    + intros (y & I & Q'). destruct (Forall2_in_r _ _ _ _ Du I) as (x & Ix & Dx). exists x. split; auto. eapply Y; eauto.
Qed.
Print Assumptions C26_member_partial.

(** [not in] is the negation. *)
Theorem C26_not_in :
  forall W ctx l e b, yields W ctx e b -> yields W ctx (EUnary l (Some TBool) U_not e) (negb b).
Proof. intros W ctx l e b Y. apply (C23_truth_table W ctx l e e b b Y Y). Qed.
Print Assumptions C26_not_in.

Example C26_ex :
  is_number pW (Some pd) (nm (t "n")) (inject_Z 7) /\
  wt pG pW true pS (ERange pl (nm (t "n")) (num 3) (num 7)) /\
  evaluate pW (Some pd) (ERange pl (nm (t "n")) (num 3) (num 7)) = Ok (Val pl (Some (PBool true, TBool))) /\
  is_text pW (Some pd) (nm (t "md")) (t "foo") /\
  evaluate pW (Some pd) (bool_op B_contains (ELit pl (LStr (t "oo") false)) (nm (t "md"))) = Ok (Val pl (Some (PBool true, TBool))) /\
  wt pG pW true pS (bool_op B_arrcontains (num (-2)) (nm (t "arr"))) /\
  evaluate pW (Some pd) (bool_op B_arrcontains (num (-2)) (nm (t "arr"))) = Ok (Val pl (Some (PBool true, TBool))).
Proof.
  split; [do 2 eexists; split; [vm_compute; reflexivity|]; left; exists 7; split; reflexivity|].
  split; [typed|]. split; [vm_compute; reflexivity|]. split; [do 2 eexists; split; vm_compute; reflexivity|].
  split; [vm_compute; reflexivity|]. split; [typed|vm_compute; reflexivity].
Qed.

(** A markup string is never in an array of strings, although it is equal to
    one of the elements. *)
Theorem C26_markup_refuted :
  exists G W S d e f s ys, sane G W /\ scope_ok G W S d /\ wt G W true S (bool_op B_arrcontains e f) /\
    sem W d e (Some s) /\ sem W d f (Some (SArr ys)) /\ (exists y, In y ys /\ same y s) /\
    yields W (Some d) (bool_op B_arrcontains e f) false.
Proof.
  exists pG, pW, pS, pd, (nm (t "md")), (nm (t "strs")). do 2 eexists. split; [exact pW_sane|]. split; [exact pd_scope|].
  split; [typed|]. split; [eapply sem_name; [reflexivity|apply st_lit]|].
  split; [eapply sem_name; [reflexivity|apply st_arr; constructor; [apply st_lit|constructor]]|].
  split; [eexists; split; [left; reflexivity|reflexivity]|]. do 2 eexists; split; vm_compute; reflexivity.
Qed.
Print Assumptions C26_markup_refuted.

(** ** C27 *)
Theorem C27_oneof :
  forall W ctx l es bs, Forall2 (yields W ctx) es bs ->
    exists b, yields W ctx (EOneof l es) b /\
      (b = true <-> exists pre post, bs = pre ++ true :: post /\ ~ In true (pre ++ post)).
Proof.
  intros W ctx l es bs F.
  assert (X : exists vs, (fix go (es : list expr) : eres (list value) :=
                  match es with
                  | [] => Ok []
                  | a :: es' => do x <- evaluate W ctx a ; do xs <- go es' ; Ok (x :: xs)
                  end) es = Ok vs /\ map equals_true vs = bs).
  { induction F as [|e b es bs (v & a & E & V) F (vs & G & M)]; [exists []; auto|].
    exists (v :: vs). rewrite E. cbn. rewrite G. split; auto. cbn. rewrite M. f_equal. unfold equals_true. rewrite V.
    destruct b; reflexivity. }
  destruct X as (vs & G & <-). exists (Nat.eqb (List.length (filter equals_true vs)) 1). split.
  - unfold yields. cbn. rewrite G. cbn. do 2 eexists; split; reflexivity.
  - rewrite Nat.eqb_eq. apply count_one.
Qed.
Print Assumptions C27_oneof.

(** The branch of the first true condition; what comes after it does not
    matter. *)
Theorem C27_conditional :
  forall W ctx l pre c x post els,
    (forall c' x', In (c', x') pre -> yields W ctx c' false) -> yields W ctx c true ->
    evaluate W ctx (ECond l (pre ++ (c, x) :: post) els) = evaluate W ctx x.
Proof.
  intros W ctx l pre c x post els H (v & a & E & V). cbn. induction pre as [|[c' x'] pre IH]; cbn.
  - rewrite E. cbn. rewrite V. reflexivity.
  - destruct (H c' x' (or_introl eq_refl)) as (v' & a' & E' & V'). rewrite E'. cbn. rewrite V'. cbn. apply IH.
    intros c0 x0 I. apply (H c0 x0). right. exact I.
Qed.
Print Assumptions C27_conditional.

Theorem C27_else :
  forall W ctx l acts els, (forall c x, In (c, x) acts -> yields W ctx c false) ->
    evaluate W ctx (ECond l acts els) = evaluate W ctx els.
Proof.
  intros W ctx l acts els H. cbn. induction acts as [|[c' x'] pre IH]; cbn; auto.
  destruct (H c' x' (or_introl eq_refl)) as (v' & a' & E' & V'). rewrite E'. cbn. rewrite V'. cbn. apply IH.
  intros c0 x0 I. apply (H c0 x0). right. exact I.
Qed.
Print Assumptions C27_else.

Example C27_ex :
  let lt z := bool_op B_lt (nm (t "n")) (num z) in
  Forall2 (yields pW (Some pd)) [lt 3; lt 8; lt 1] [false; true; false] /\
  evaluate pW (Some pd) (EOneof pl [lt 3; lt 8; lt 1]) = Ok (Val pl (Some (PBool true, TBool))) /\
  evaluate pW (Some pd) (EOneof pl [lt 8; lt 3; lt 9]) = Ok (Val pl (Some (PBool false, TBool))) /\
  wt pG pW true pS (ECond pl [(lt 3, num 1); (lt 8, num 2); (div0, num 3)] (num 4)) /\
  evaluate pW (Some pd) (ECond pl [(lt 3, num 1); (lt 8, num 2); (div0, num 3)] (num 4)) = Ok (Val pl (Some (PInt 2, TInt))).
Proof.
  intros lt. split; [repeat constructor; do 2 eexists; split; vm_compute; reflexivity|].
  split; [vm_compute; reflexivity|]. split; [vm_compute; reflexivity|]. split; [subst lt; unfold div0; typed|vm_compute; reflexivity].
Qed.

(** ** C28 *)
Definition is_null (W : world) (ctx : context) (e : expr) : Prop :=
  exists v, evaluate W ctx e = Ok v /\ v_val v = None.
Definition rejects (W : world) (ctx : context) (e : expr) : Prop :=
  exists x p, evaluate W ctx e = Err (x, p) /\ internal p = false.

(** Each operand in turn, where the ones evaluated before have values.
    Missing for the full claim: the right side of [and], [or] and [implies],
    the predicate of a quantifier (C22) and the parameters of oneof. *)
Theorem C28_null_partial :
  forall W ctx l a,
    (forall op e, is_null W ctx e -> rejects W ctx (EUnary l a op e)) /\
    (forall op e f, ~ In op [B_eq; B_neq] -> is_null W ctx e -> rejects W ctx (EBinary l a op e f)) /\
    (forall op e f v, ~ In op [B_eq; B_neq; B_and; B_or; B_implies] ->
       evaluate W ctx e = Ok v -> is_null W ctx f -> rejects W ctx (EBinary l a op e f)) /\
    (forall c p un uv, is_null W ctx p -> rejects W ctx (EField l c p un uv)) /\
    (forall e lo hi, is_null W ctx e -> rejects W ctx (ERange l e lo hi)) /\
    (forall e lo hi v, evaluate W ctx e = Ok v -> is_null W ctx lo -> rejects W ctx (ERange l e lo hi)) /\
    (forall e lo hi v w, evaluate W ctx e = Ok v -> evaluate W ctx lo = Ok w -> is_null W ctx hi ->
       rejects W ctx (ERange l e lo hi)) /\
    (forall c x acts els, is_null W ctx c -> rejects W ctx (ECond l ((c, x) :: acts) els)) /\
    (forall d un var ls src body ln, ctx = Some d -> assoc (c_name src) d = Some (XNull ln) ->
       rejects W ctx (EQuant l un var ls src body)).
Proof.
  intros W ctx l a. unfold is_null, rejects. repeat apply conj.
  - intros op e (v & E & V). cbn. rewrite E. cbn. unfold eval_unary. rewrite V. do 2 eexists; split; reflexivity.
  - intros op e f N (v & E & V). cbn. rewrite E. cbn. rewrite V. destruct op; cbn in *; try (exfalso; apply N; tauto);
      do 2 eexists; split; reflexivity.
  - intros op e f v N E (w & F & U). cbn. rewrite E. cbn. destruct (v_val v) as [[p b]|] eqn:V.
    + destruct op; cbn in *; try (exfalso; apply N; tauto); rewrite F; cbn; rewrite U; do 2 eexists; split; reflexivity.
    + destruct op; cbn in *; try (exfalso; apply N; tauto); do 2 eexists; split; reflexivity.
  - intros c p un uv (v & E & V). cbn. rewrite E. cbn. rewrite V. do 2 eexists; split; reflexivity.
  - intros e lo hi (v & E & V). cbn. rewrite E. cbn. rewrite V. do 2 eexists; split; reflexivity.
  - intros e lo hi v E (w & F & U). cbn. rewrite E. cbn. destruct (v_val v) as [[p b]|]; [|do 2 eexists; split; reflexivity].
    rewrite F. cbn. rewrite U. do 2 eexists; split; reflexivity.
  - intros e lo hi v w E F (u & H & U). cbn. rewrite E. cbn. destruct (v_val v) as [[p b]|]; [|do 2 eexists; split; reflexivity].
    rewrite F. cbn. destruct (v_val w) as [[p' b']|]; [|do 2 eexists; split; reflexivity].
    rewrite H. cbn. rewrite U. do 2 eexists; split; reflexivity.
  - intros c x acts els (v & E & V). cbn. rewrite E. cbn. rewrite V. do 2 eexists; split; reflexivity.
  - intros d un var ls src body ln -> E. cbn. rewrite E. do 2 eexists; split; reflexivity.
Qed.
Print Assumptions C28_null_partial.

(** [n < flag] would not be accepted; [not flag] is, and rejected for an
    object without flag. *)
Example C28_ex :
  is_null pW (Some pd) (nm (t "flag")) /\
  wt pG pW true pS (EUnary pl (Some TBool) U_not (nm (t "flag"))) /\
  evaluate pW (Some pd) (EUnary pl (Some TBool) U_not (nm (t "flag"))) = Err (ql, P_null_operand).
Proof. split; [eexists; split; vm_compute; reflexivity|]. split; [typed|vm_compute; reflexivity]. Qed.

(** [true and flag] is null without an error, [oneof(flag, true)] is true. *)
Definition yes : expr := ELit pl (LBool true).
Theorem C28_logic_refuted :
  exists G W S d e, sane G W /\ scope_ok G W S d /\ is_null W (Some d) e /\
    (wt G W true S (bool_op B_and yes e) /\ is_null W (Some d) (bool_op B_and yes e)) /\
    (wt G W true S (EOneof pl [e; yes]) /\ yields W (Some d) (EOneof pl [e; yes]) true).
Proof.
  exists pG, pW, pS, pd, (nm (t "flag")). split; [exact pW_sane|]. split; [exact pd_scope|].
  split; [eexists; split; vm_compute; reflexivity|]. split.
  - split; [unfold yes; typed|eexists; split; vm_compute; reflexivity].
  - split; [|do 2 eexists; split; vm_compute; reflexivity].
    apply wt_oneof; intros x [<-|[<-|[]]]; try reflexivity; [typed|apply wt_lit].
Qed.
Print Assumptions C28_logic_refuted.

(** ** C44 *)

(** Where [can_be_null] can be relied upon. *)
Definition plain_at (e : expr) : Prop :=
  match e with
  | EName _ _ _ qv opt => qv = true -> opt = false
  | EBinary _ _ (B_and | B_or | B_implies) _ b => can_be_null b = false
  | EField _ c _ union universal => if union then universal = false else c_opt c = false
  | _ => True
  end.
Lemma plain_null e : (forall x, sub x e -> plain_at x) -> maybe_null e = true -> can_be_null e = true.
Proof.
  induction e using expr_ind2; intros P M; cbn in *; try discriminate; auto.
  - specialize (P _ (sub_refl _)). cbn in P. destruct qv; auto. rewrite P in M; auto.
  - assert (H := P _ (sub_refl _)). cbn in H.
    destruct op; try discriminate; rewrite IHe2 in H; auto; try discriminate; intros x S; apply P; apply sub_right; auto.
  - specialize (P _ (sub_refl _)). cbn in P. destruct un; [|congruence]. rewrite P. reflexivity.
  - apply orb_true_iff in M as [M|M]; apply orb_true_iff.
    + right. apply existsb_exists in M as ([c x] & I & M). apply existsb_exists. exists (c, x). split; auto.
      match goal with H : forall c x, In _ acts -> _ |- _ => apply (H c x I); auto end.
      intros y S. apply P. eapply sub_cond; eauto.
    + left. apply IHe; auto. intros y S. apply P. apply sub_else. auto.
Qed.

Theorem C44_can_be_null_partial :
  forall G W S d e v, sane G W -> wt G W true S e -> scope_ok G W S d -> (forall x, sub x e -> plain_at x) ->
    evaluate W (Some d) e = Ok v -> v_val v = None -> can_be_null e = true.
Proof.
  intros G W S d e v Sn T K P E V. apply plain_null; auto.
  pose proof (C22_well_typed_partial G W S d e Sn T K) as H. rewrite E in H. apply H, V.
Qed.
Print Assumptions C44_can_be_null_partial.

(** [if n < 0 then true else flag] *)
Definition cond_ex : expr := ECond pl [(bool_op B_lt (nm (t "n")) (num 0), yes)] (nm (t "flag")).
Example C44_ex :
  wt pG pW true pS cond_ex /\ evaluate pW (Some pd) cond_ex = Ok (null_value ql) /\
  (forall x, sub x cond_ex -> plain_at x) /\ can_be_null cond_ex = true.
Proof.
  split; [|split; [vm_compute; reflexivity|split; [|reflexivity]]].
  - unfold cond_ex. eapply wt_cond; [discriminate| |reflexivity| |typed].
    + intros c x H. each H. injection H as <- <-. split; reflexivity.
    + intros c x H. each H. injection H as <- <-. split; [typed|apply wt_lit].
  - intros x H. inversion H as [ | | | | | | | | |? ? ? ? ? ? I O| | ]; subst; cbn; auto.
    + each I. injection I as <- <-. destruct O as [O|O].
      * inversion O as [ | |? ? ? ? ? ? O1|? ? ? ? ? ? O1| | | | | | | | ]; subst; cbn; auto; inversion O1; subst; cbn; auto.
      * inversion O; subst; cbn; auto.
    + match goal with O : sub x (nm _) |- _ => inversion O; subst; cbn; auto end.
Qed.

(** [tup.b], where b is optional, and [true and flag]: null although
    [can_be_null] denies it. *)
Definition tup_b : expr := EField pl (Comp (t "b") TInt true (TTup 0)) (nm (t "tup")) false false.
Theorem C44_field_refuted :
  exists G W S d e, sane G W /\ wt G W true S e /\ scope_ok G W S d /\
    is_null W (Some d) e /\ can_be_null e = false /\ (exists l c p, e = EField l c p false false).
Proof.
  exists pG, pW, pS, pd, tup_b. split; [exact pW_sane|]. split; [unfold tup_b; typed|]. split; [exact pd_scope|].
  split; [eexists; split; vm_compute; reflexivity|]. split; [reflexivity|]. repeat eexists.
Qed.
Print Assumptions C44_field_refuted.
Theorem C44_logic_refuted :
  exists G W S d e f, sane G W /\ wt G W true S (bool_op B_and e f) /\ scope_ok G W S d /\
    is_null W (Some d) (bool_op B_and e f) /\ can_be_null (bool_op B_and e f) = false.
Proof.
  exists pG, pW, pS, pd, yes, (nm (t "flag")). split; [exact pW_sane|]. split; [unfold yes; typed|]. split; [exact pd_scope|].
  split; [eexists; split; vm_compute; reflexivity|reflexivity].
Qed.
Print Assumptions C44_logic_refuted.

(** ** C45 *)

(** The manual gives at most one meaning to an expression ([sem] in
    EvalSpec.v), ... *)
Theorem C45_meaning_unique : forall W d e s s', sem W d e s -> sem W d e s' -> osame s s'.
Proof. intros W d e s s'. apply sem_unique. Qed.
Print Assumptions C45_meaning_unique.

(** ... evaluation yields it if there is one, and reports an error exactly if
    there is none.  Missing for the full claim: the deviations found in C22,
    C25, C26 and C28, excluded by [wt true], [distinct_objects] and
    [regular]. *)
Theorem C45_evaluation_partial :
  forall G W S d e, sane G W -> distinct_objects W -> wt G W true S e -> scope_ok G W S d -> regular e ->
    (forall v, evaluate W (Some d) e = Ok v -> exists s, sem W d e s /\ oden W v s) /\
    ((exists x, evaluate W (Some d) e = Err x) <-> (forall s, ~ sem W d e s)) /\
    evaluate W (Some d) e <> Crash /\ evaluate W (Some d) e <> OutOfFuel.
Proof.
  intros G W S d e [H1 H2 H3 H4] D T K R.
  pose proof (correctness G W H1 H2 H3 H4 D e S d T K R) as C. unfold correct in C.
  destruct (evaluate W (Some d) e) as [v|x| |]; try contradiction.
  - split; [intros ? [= <-]; auto|]. split; [|split; discriminate].
    split; [intros (x & E); discriminate|]. intros N. destruct C as (s & Sm & _). destruct (N s Sm).
  - split; [discriminate|]. split; [|split; discriminate]. split; auto. intros _. exists x. auto.
Qed.
Print Assumptions C45_evaluation_partial.

(** The same for a check of an accepted object of its type. *)
Theorem C45_object_partial :
  forall G W o ob e b, sane G W -> distinct_objects W -> nth_error (w_objs W) o = Some ob ->
    wt G W true (scope_of G (o_typ ob)) e -> e_typ e = Some TBool -> regular e ->
    sem W (dict (o_fields ob)) e (Some (SBool b)) <-> yields W (Some (dict (o_fields ob))) e b.
Proof.
  intros G W o ob e b Sn D E T Te R. pose proof Sn as [H1 H2 H3 H4].
  pose proof (object_scope G W ob (H2 _ _ E)) as K.
  pose proof (soundness G W H1 H2 H3 H4 e _ _ T K) as So.
  pose proof (correctness G W H1 H2 H3 H4 D e _ _ T K R) as C. unfold correct in C. unfold yields.
  destruct (evaluate W (Some (dict (o_fields ob))) e) as [v|x| |]; try contradiction.
  - destruct C as (s & Sm & O), So as [Ty _]. split.
    + intros Sb. pose proof (sem_unique _ _ _ _ _ Sm Sb) as U. destruct s as [s|]; [|contradiction].
      destruct s; try contradiction. cbn in U. subst. unfold oden in O. destruct (v_val v) as [[p a]|] eqn:V; [|contradiction].
      destruct p; try contradiction. cbn in O. subst. eauto.
    + intros (v' & a & [= <-] & V). unfold oden in O. rewrite V in O. destruct s as [s|]; [|contradiction].
      destruct s; try contradiction. cbn in O. subst. auto.
  - split; [intros Sb; destruct (C _ Sb)|intros (v' & a & ? & _); discriminate].
Qed.
Print Assumptions C45_object_partial.

Lemma check_ex_regular : regular check_ex.
Proof.
  intros x H. unfold check_ex, bool_op in H.
  repeat match goal with
  | H : sub _ (EQuant _ _ _ _ _ _) |- _ => inversion H; clear H; subst
  | H : sub _ (EBinary _ _ _ _ _) |- _ => inversion H; clear H; subst
  | H : sub _ (EUnary _ _ _ _) |- _ => inversion H; clear H; subst
  | H : sub _ (EField _ _ _ _ _) |- _ => inversion H; clear H; subst
  | H : sub _ (num _) |- _ => inversion H; clear H; subst
  | H : sub _ (var _ _) |- _ => inversion H; clear H; subst
  | H : sub _ (nm _) |- _ => inversion H; clear H; subst
  end; cbn; auto.
Qed.
Example C45_ex : sem pW pd check_ex (Some (SBool true)).
Proof.
  destruct (C45_object_partial pG pW 0 (Object 0 (t "obj") ql 0 (the_fields 2 3)) check_ex true pW_sane pW_distinct eq_refl)
    as [_ H]; [unfold check_ex, var; typed|reflexivity|exact check_ex_regular|].
  apply H. do 2 eexists. split; vm_compute; reflexivity.
Qed.
