(** The model of the solver that belongs to the objects of a run. *)
From Coq Require Import Relations Qcanon.
From Verif Require Import Base Lexer MathModel MathProofs Ast Eval TypesProofs Typing Soundness EvalSpec EvalSpecProofs EvalCorrect SemEval Vcg VcgSem VcgEnc VcgOps VcgEq VcgFun.
From Coq Require Import ZifyBool ZifyNat.
Open Scope Z_scope.

(** ** A value for every type that has one *)
Section JUNK.
Variable G : types.
Hypothesis tup_usable : forall u ut c, tup G u = Some ut -> In c (u_comps ut) -> usable G (c_typ c).

Lemma tuple_value u ut : tup G u = Some ut -> exists w, of_sort G true (TTup u) w.
Proof.
  intros E. assert (X : exists fs : list (text * (sv * option bool)), Forall2 (fun c f => fst f = c_name c /\ of_sort G true (c_typ c) (fst (snd f)) /\ (c_opt c = true <-> snd (snd f) <> None)) (u_comps ut) fs).
  { assert (U : forall c, In c (u_comps ut) -> usable G (c_typ c)) by (intros; eapply tup_usable; eauto). revert U. generalize (u_comps ut). induction l as [|c cs IH]; intros U.
    - exists []. constructor.
    - destruct (U c (or_introl eq_refl)) as [w Hw]. destruct IH as [fs Hf]; [intros; apply U; right; auto|]. exists ((c_name c, (w, if c_opt c then Some true else None)) :: fs).
      constructor; auto. cbn. split; auto. split; auto. destruct (c_opt c); split; congruence. }
  destruct X as [fs Hf]. exists (VRec fs). econstructor; eauto.
Qed.
Lemma junk_exists : exists junk : ty -> sv, forall a, usable G a -> of_sort G true a (junk a).
Proof.
  assert (X : forall n, (n <= List.length (tups G))%nat -> exists f : nat -> sv, forall u, (u < n)%nat -> of_sort G true (TTup u) (f u)).
  { induction n as [|n IH]; intros L; [exists (fun _ => VBool true); intros; lia|]. destruct IH as [f Hf]; [lia|].
    destruct (nth_error (tups G) n) as [ut|] eqn:E; [|apply nth_error_None in E; lia]. destruct (tuple_value n ut E) as [w Hw].
    exists (fun u => if Nat.eqb u n then w else f u). intros u Lu. destruct (Nat.eqb u n) eqn:Q; [apply Nat.eqb_eq in Q; subst; auto|]. apply Nat.eqb_neq in Q. apply Hf. lia. }
  destruct (X _ (le_n _)) as [f Hf].
  exists (fun a => match a with
    | TInt | TRec _ | TUnion _ _ => VInt 0 | TDec => VReal 0%Qc | TBool => VBool true | TStr | TMarkup => VStr []
    | TEnum e => match nth_error (enums G) e with Some en => match en_lits en with n :: _ => VEnum e n | [] => VBool true end | None => VBool true end
    | TTup u => f u | TArr _ _ _ _ => VSeq [] end).
  intros a [w Hw]. destruct a; try (constructor; fail).
  - inversion Hw as [| | | | |? n En| | | |]; subst. destruct (En eq_refl) as (en & E & I). rewrite E. destruct (en_lits en) as [|m ms] eqn:El; [destruct I|]. constructor. intros _. exists en. split; auto. rewrite El. left. auto.
  - inversion Hw; subst. apply Hf. apply nth_error_Some. unfold tup in *. congruence.
  - constructor. constructor.
Qed.
End JUNK.

(** ** Union field maps *)
Section MAP.
Variable G : types.
Hypothesis names_rec : forall r, NoDup (map c_name (all_components G r)).
Lemma field_map_summary ms k : assoc k (field_map G ms) = summary (Z.of_nat (List.length ms)) (filter (named k) (flat_map (all_components G) ms)).
Proof. rewrite field_map_flat; [apply fm_fold|exact names_rec]. Qed.
Lemma map_typ ms k info a : assoc k (field_map G ms) = Some info -> fi_typ info = Some a ->
  exists m c, In m ms /\ In c (all_components G m) /\ c_name c = k /\ c_typ c = a.
Proof.
  rewrite field_map_summary. destruct (filter (named k) (flat_map (all_components G) ms)) as [|c cs] eqn:E; [discriminate|]. cbn. intros [= <-] T. cbn in T.
  assert (I : In c (filter (named k) (flat_map (all_components G) ms))) by (rewrite E; left; auto).
  apply filter_In in I as [I N]. apply in_flat_map in I as (m & Im & Ic). exists m, c. split; auto. split; auto. split; [apply text_eqb_eq; auto|].
  destruct (forallb _ _); congruence.
Qed.
Lemma members_all k ms : (List.length (filter (named k) (flat_map (all_components G) ms)) <= List.length ms)%nat /\
  (List.length (filter (named k) (flat_map (all_components G) ms)) = List.length ms -> forall m, In m ms -> exists c, In c (all_components G m) /\ c_name c = k).
Proof.
  induction ms as [|m ms [L IH]]; cbn; [split; [lia|intros _ m []]|]. rewrite filter_app, app_length. pose proof (filter_named_le1 k _ (names_rec m)) as L1. split; [lia|].
  intros E x [<-|I]; [|apply IH; auto; lia]. destruct (filter (named k) (all_components G m)) as [|c cs] eqn:Ef; [cbn in E; lia|].
  assert (I : In c (filter (named k) (all_components G m))) by (rewrite Ef; left; auto). apply filter_In in I as [I N]. exists c. split; auto. apply text_eqb_eq. auto.
Qed.
Lemma map_total ms k info : assoc k (field_map G ms) = Some info -> has_valid info = false -> forall m, In m ms -> exists c, In c (all_components G m) /\ c_name c = k /\ c_opt c = false.
Proof.
  rewrite field_map_summary. destruct (members_all k ms) as [L A]. destruct (filter (named k) (flat_map (all_components G) ms)) as [|c cs] eqn:E; [discriminate|]. cbn. intros [= <-] V m Im.
  unfold has_valid in V. cbn [fi_count fi_total fi_optional] in V. apply orb_false_iff in V as [V1 V2]. destruct (A ltac:(cbn [List.length]; lia) m Im) as (x & Ix & Nx). exists x. split; auto. split; auto.
  destruct (c_opt x) eqn:O; auto. exfalso. assert (Y : In x (c :: cs)) by (rewrite <- E; apply filter_In; split; [apply in_flat_map; eauto|apply text_eqb_eq; auto]).
  assert (existsb c_opt (c :: cs) = true) by (apply existsb_exists; eauto). cbn in *. congruence.
Qed.
End MAP.

Section MODEL.
Variable G : types.
Variable W : world.
Variable junk : ty -> sv.
Hypothesis wf : wf_types G.
Hypothesis ww : wt_world G W.
Hypothesis names_rec : forall r, NoDup (map c_name (all_components G r)).
Hypothesis names_tup : forall u ut, nth_error (tups G) u = Some ut -> NoDup (map c_name (u_comps ut)).
Hypothesis apart : distinct_objects W.
Hypothesis junk_ok : forall a, usable G a -> of_sort G true a (junk a).
Hypothesis tup_usable : forall u ut c, tup G u = Some ut -> In c (u_comps ut) -> usable G (c_typ c).
Hypothesis rec_usable : forall r c, In c (all_components G r) -> usable G (c_typ c).
(** The stored values, with array lengths and literals as declared. *)
Definition legal_world : Prop := forall o ob c id v s, nth_error (w_objs W) o = Some ob -> In c (all_components G (o_typ ob)) ->
  assoc (c_name c) (o_fields ob) = Some (id, v) -> sval_of v = Some s -> st G W true (c_typ c) s.
Hypothesis legal : legal_world.
Notation enc := (enc G junk).

Definition object_at (z : Z) : option object := if 0 <=? z then nth_error (w_objs W) (Z.to_nat z) else None.
Definition value_at (z : Z) (k : text) (a : ty) : sv :=
  match object_at z with
  | Some ob =>
      match find (named k) (all_components G (o_typ ob)), assoc k (o_fields ob) with
      | Some c, Some (_, v) => if ty_eqb (c_typ c) a then match sval_of v with Some s => enc a s | None => junk a end else junk a
      | _, _ => junk a
      end
  | None => junk a
  end.
Definition ok_at (z : Z) (k : text) : bool :=
  match object_at z with Some ob => match assoc k (o_fields ob) with Some (_, v) => is_some (sval_of v) | None => false end | None => false end.
Definition deref (f : uf) (z : Z) : sv :=
  match f with
  | F_record r => VRec (map (fun c => (c_name c, (value_at z (c_name c) (c_typ c), if c_opt c then Some (ok_at z (c_name c)) else None))) (all_components G r))
  | F_union ms => VRec (map (fun '(k, i) => (k, (match fi_typ i with Some a => value_at z k a | None => VBool false end, if has_valid i then Some (ok_at z k) else None))) (field_map G ms))
  end.
Definition model_of (vals : text -> sv) (oks : text -> bool) : model :=
  Model vals oks deref (fun s p => match w_match W p s with Some r => r | None => false end) (fun el _ _ => junk el).

Lemma value_sorted z k a : usable G a -> of_sort G true a (value_at z k a).
Proof.
  intros U. unfold value_at, object_at. destruct (0 <=? z); [|auto]. destruct (nth_error (w_objs W) (Z.to_nat z)) as [ob|] eqn:Eo; [|auto].
  destruct (find (named k) (all_components G (o_typ ob))) as [c|] eqn:Ef; [|auto]. destruct (assoc k (o_fields ob)) as [[id v]|] eqn:Ea; [|auto].
  destruct (ty_eqb (c_typ c) a) eqn:Et; [|auto]. destruct (sval_of v) as [s|] eqn:Es; [|auto]. apply ty_eqb_eq in Et. subst a.
  apply find_some in Ef as [Ic Nc]. apply text_eqb_eq in Nc. subst k. apply (enc_sort G W junk junk_ok tup_usable). eauto.
Qed.
Lemma assoc_comp {A} (f : component -> A) cs c : NoDup (map c_name cs) -> In c cs -> assoc (c_name c) (map (fun c => (c_name c, f c)) cs) = Some (f c).
Proof. intros N I. apply in_assoc; [rewrite map_map; exact N|]. apply in_map_iff. eauto. Qed.
Lemma assoc_keyed {A B} (f : text -> A -> B) l k x : assoc k l = Some x -> assoc k (map (fun '(k, i) => (k, f k i)) l) = Some (f k x).
Proof. induction l as [|[k' y] l IH]; cbn; [discriminate|]. destruct (text_eqb k' k) eqn:E; auto. intros [= <-]. apply text_eqb_eq in E. subst. auto. Qed.
Lemma find_comp cs c : NoDup (map c_name cs) -> In c cs -> find (named (c_name c)) cs = Some c.
Proof.
  induction cs as [|x cs IH]; cbn; intros N I; [contradiction|]. inversion N as [|? ? N1 N2]; subst. unfold named at 1. destruct (text_eqb (c_name x) (c_name c)) eqn:E.
  - apply text_eqb_eq in E. destruct I as [->|I]; auto. exfalso. apply N1. rewrite E. apply in_map. auto.
  - destruct I as [->|I]; auto. rewrite text_eqb_refl in E. discriminate.
Qed.
Lemma object_at_nat o : object_at (Z.of_nat o) = nth_error (w_objs W) o.
Proof. unfold object_at. replace (0 <=? Z.of_nat o) with true by lia. rewrite Nat2Z.id. auto. Qed.

Lemma stored_value o ob c : nth_error (w_objs W) o = Some ob -> In c (all_components G (o_typ ob)) ->
  forall v s, option_map snd (assoc (c_name c) (o_fields ob)) = Some v -> sval_of v = Some s ->
  st G W false (c_typ c) s /\ value_at (Z.of_nat o) (c_name c) (c_typ c) = enc (c_typ c) s.
Proof.
  intros Eo Ic v s Ev Es. destruct (assoc (c_name c) (o_fields ob)) as [[id v']|] eqn:Ea; [|discriminate]. injection Ev as ->. split; [apply st_weaken; eapply legal; eauto|].
  unfold value_at. rewrite object_at_nat, Eo, (find_comp _ _ (names_rec _) Ic), Ea, ty_eqb_refl, Es. auto.
Qed.
Lemma ok_value o ob k : nth_error (w_objs W) o = Some ob -> ok_at (Z.of_nat o) k = match option_map snd (assoc k (o_fields ob)) with Some v => is_some (sval_of v) | None => false end.
Proof. intros Eo. unfold ok_at. rewrite object_at_nat, Eo. destruct (assoc k (o_fields ob)) as [[id v]|]; auto. Qed.
Lemma mandatory o ob c : nth_error (w_objs W) o = Some ob -> In c (all_components G (o_typ ob)) -> c_opt c = false ->
  exists v s, option_map snd (assoc (c_name c) (o_fields ob)) = Some v /\ sval_of v = Some s.
Proof.
  intros Eo Ic Oc. destruct (ww _ _ Eo) as (_ & A & _). destruct (A c Ic) as (id & v & Ea & Fv). rewrite Ea. cbn. rewrite Oc in Fv. destruct Fv as [V|(X & _)]; [|discriminate].
  destruct (vt_stores _ _ _ _ V) as (s & Es & _). eauto.
Qed.

Theorem model_faithful vals oks : faithful G W junk (model_of vals oks).
Proof.
  constructor; auto; cbn [m_match m_deref m_nth model_of].
  - intros p s r ->. auto.
  - intros r z c I. cbn [deref]. eexists _, _, _. split; [reflexivity|]. split; [apply (assoc_comp (fun c => (value_at z (c_name c) (c_typ c), if c_opt c then Some (ok_at z (c_name c)) else None))); auto|].
    split; [apply value_sorted; eauto|]. destruct (c_opt c); split; congruence.
  - intros ms z k info a Ak Ft. cbn [deref]. destruct (map_typ G names_rec _ _ _ _ Ak Ft) as (m & c & Im & Ic & Nc & Tc).
    eexists _, _, _. split; [reflexivity|]. split; [apply (assoc_keyed (fun k i => (match fi_typ i with Some a => value_at z k a | None => VBool false end, if has_valid i then Some (ok_at z k) else None)) _ _ _ Ak)|].
    rewrite Ft. split; [apply value_sorted; rewrite <- Tc; eauto|]. destruct (has_valid info); split; congruence.
  - auto.
  - intros r o ob c Eo Fo Ic. cbn [deref]. eexists. split; [reflexivity|]. destruct (ww _ _ Eo) as (Lt & _).
    assert (Ic' : In c (all_components G (o_typ ob))) by (eapply components_inherited; eauto).
    exists (value_at (Z.of_nat o) (c_name c) (c_typ c)). split; [|split].
    + rewrite (assoc_comp (fun c => (value_at (Z.of_nat o) (c_name c) (c_typ c), if c_opt c then Some (ok_at (Z.of_nat o) (c_name c)) else None))); auto. rewrite (ok_value _ _ _ Eo). auto.
    + intros v s Ev Es. eapply stored_value; eauto.
    + intros Oc. eapply mandatory; eauto.
  - intros ms o ob k info a Eo (m & Im & Fo) Ak Ft Co. cbn [deref]. eexists. split; [reflexivity|]. destruct (ww _ _ Eo) as (Lt & Al & Nm & _).
    exists (value_at (Z.of_nat o) k a). split; [|split].
    + rewrite (assoc_keyed (fun k i => (match fi_typ i with Some a => value_at (Z.of_nat o) k a | None => VBool false end, if has_valid i then Some (ok_at (Z.of_nat o) k) else None)) _ _ _ Ak), Ft, (ok_value _ _ _ Eo). auto.
    + intros v s Ev Es. destruct (assoc k (o_fields ob)) as [f|] eqn:Ea; [|discriminate]. destruct (Nm _ _ Ea) as (c & Ic & Nc). subst k.
      assert (c_typ c = a) as <- by (eapply Co; eauto). eapply stored_value; eauto. rewrite Ea. auto.
    + intros V. destruct (map_total G names_rec _ _ _ Ak V m Im) as (c & Ic & Nc & Oc). subst k. eapply mandatory; eauto. eapply components_inherited; eauto.
  - intros r c Ic. destruct (nth_error (recs G) r) as [rt|] eqn:E; [|unfold own_components in Ic; rewrite E in Ic; contradiction].
    destruct (lineage_exists G wf r) as (ls & Ls); [apply nth_error_Some; congruence|]. rewrite (all_components_spec G wf _ _ Ls). apply in_flat_map. exists r. split; auto. apply (lineage_in G _ _ Ls). apply rt_refl.
Qed.
Theorem model_sorted vals oks cs : (forall c, In c cs -> of_sort G true (c_typ c) (vals (c_name c))) -> well_sorted G cs (model_of vals oks).
Proof.
  intros V. pose proof (model_faithful vals oks) as F. constructor; auto.
  - intros. eapply f_record; eauto.
  - intros. eapply f_union; eauto.
  - intros. eapply f_nth; eauto.
Qed.
End MODEL.
