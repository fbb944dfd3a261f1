(** Properties C39, C40, C46 and C47: the linter. *)
From Coq Require Import Relations Permutation.
From Verif Require Import Base Lexer Ast TypesProofs SourceManProofs Lint LintProofs.
Open Scope Z_scope.

(** *** Specification *)

(** [c] is a component in the declaration of a record or tuple type. *)
Definition component_of (G : types) (c : component) : Prop :=
  (exists r rt, nth_error (recs G) r = Some rt /\ In c (r_comps rt)) \/
  (exists u ut, nth_error (tups G) u = Some ut /\ In c (u_comps ut)).

(** The declarations: a type extends an earlier one, the types of components
    are declared, and a tuple type has no separators or one between any two
    of its components. *)
Definition known (G : types) (a : ty) : Prop :=
  match a with
  | TRec r => nth_error (recs G) r <> None
  | TTup u => nth_error (tups G) u <> None
  | TUnion _ ms => forall m, In m ms -> nth_error (recs G) m <> None
  | _ => True
  end.
Record program (G : types) (order : list ty) : Prop := Program {
  pr_wf : wf_types G;
  pr_known : forall c, component_of G c -> known G (c_typ c);
  pr_seps : forall u ut, nth_error (tups G) u = Some ut ->
    u_seps ut = [] \/ List.length (u_comps ut) = S (List.length (u_seps ut));
  (* the symbol tables contain the declared types, each once *)
  pr_recs : forall r, nth_error (recs G) r <> None <-> In (TRec r) order;
  pr_tups : forall u, nth_error (tups G) u <> None <-> In (TTup u) order;
  pr_only : forall a, In a order -> (exists r, a = TRec r) \/ (exists u, a = TTup u) \/ (exists e, a = TEnum e);
  pr_once : NoDup order
}.

Lemma no_components G f r : rec G r = None -> all_components_steps G f r = [].
Proof. intros E. destruct f; cbn [all_components_steps]; rewrite E; auto. Qed.
Lemma reach_spec G order a : program G order ->
  reach G order a <-> In a order \/ exists c, component_of G c /\ c_typ c = a.
Proof.
  intros P. split.
  - induction 1 as [a I|a b R IH I]; auto.
    destruct a as [ | | | | |e|u|r|i ms|i lo hi el]; cbn in I; try contradiction.
    + right. destruct (tup G u) as [ut|] eqn:U; [|contradiction]. apply in_map_iff in I as (c & <- & I).
      exists c. split; auto. right. eauto.
    + right. apply in_map_iff in I as (c & <- & I). exists c. split; auto.
      destruct (rec G r) as [rt|] eqn:E;
        [|exfalso; revert I; unfold all_components; rewrite (no_components G r r E); auto].
      destruct (lineage_exists G (pr_wf _ _ P) r) as [l L]; [apply nth_error_Some; unfold rec in E; congruence|].
      rewrite (all_components_spec G (pr_wf _ _ P) _ _ L) in I. apply in_flat_map in I as (q & _ & I).
      unfold own_components in I. destruct (nth_error (recs G) q) as [qt|] eqn:Q; [|destruct I]. left. eauto.
    + destruct IH as [IH|(c & C & T)].
      * apply (pr_only _ _ P) in IH as [[? [=]]|[[? [=]]|[? [=]]]].
      * left. apply in_map_iff in I as (m & <- & I). pose proof (pr_known _ _ P c C) as K. rewrite T in K. cbn in K.
        apply K in I. apply (pr_recs _ _ P) in I. auto.
  - intros [I|(c & [(r & rt & R & I)|(u & ut & U & I)] & <-)].
    + apply reach_in. auto.
    + apply reach_step with (TRec r).
      * apply reach_in, (pr_recs _ _ P). congruence.
      * cbn. apply in_map. destruct (lineage_exists G (pr_wf _ _ P) r) as [l L]; [apply nth_error_Some; congruence|].
        rewrite (all_components_spec G (pr_wf _ _ P) _ _ L). apply in_flat_map. exists r. split.
        -- inversion L; subst; [left; auto|apply in_app_iff; right; left; auto].
        -- unfold own_components. rewrite R. auto.
    + apply reach_step with (TTup u).
      * apply reach_in, (pr_tups _ _ P). congruence.
      * cbn. unfold tup. rewrite U. apply in_map. auto.
Qed.

(** The findings at the end of the run *)
Lemma findings G order s : program G order -> perform_sanity_checks G order = Ok s ->
  (forall f, (forall r, f <> F_abstract r) ->
     In f (found s) <-> exists a, (In a order \/ exists c, component_of G c /\ c_typ c = a) /\ In f (local G a)) /\
  (forall r, In (F_abstract r) (found s) <->
     exists rt, nth_error (recs G) r = Some rt /\ r_abstract rt = true /\ forall c, ~ supports G c r).
Proof.
  intros P E. unfold perform_sanity_checks in E.
  destruct (verify_all _ _ _ _) as [s1| | |] eqn:E1; try discriminate. cbn in E.
  apply verify_all_end in E1 as (R & N & X & F).
  destruct (abstract_leaves_end _ _ _ _ E) as (C2 & X2 & fs & F2 & H & _).
  destruct (marked_all G (pr_wf _ _ P) (checked s1)) as [M1 M2]. rewrite <- X in M1, M2.
  assert (L : forall f, In f (found s1) <-> exists a, (In a order \/ exists c, component_of G c /\ c_typ c = a) /\ In f (local G a)).
  { intros f. split.
    - intros I. apply (Permutation_in _ F) in I. apply in_flat_map in I as (a & I & J). exists a. split; auto.
      apply R in I. apply reach_spec; auto.
    - intros (a & I & J). apply (Permutation_in _ (Permutation_sym F)). apply in_flat_map. exists a. split; auto.
      apply R. apply reach_spec; auto. }
  assert (NL : forall r a, ~ In (F_abstract r) (local G a)).
  { intros r a I. destruct a as [ | | | | |e|u|q|i ms|i lo hi el]; cbn in I; try contradiction.
    - destruct (tup G u) as [ut|]; [|contradiction].
      destruct (tuple_items G u (iter_sequence ut) false None (LState [] [] [])) as [s2| | |] eqn:E2; try contradiction.
      assert (K : forall items w bad (s0 s3 : lstate), ~ In (F_abstract r) (found s0) ->
                  tuple_items G u items w bad s0 = Ok s3 -> ~ In (F_abstract r) (found s3)).
      { clear. induction items as [|it items IH]; cbn; intros w bad s0 s3 N0 E3; [injection E3 as <-; auto|].
        destruct bad.
        - destruct it; [|discriminate].
          destruct (if is_integer (c_typ c) then Ok tt else example G (example_fuel G) (c_typ c)); try discriminate.
          cbn in E3. eapply IH; [|eauto]. cbn. rewrite in_app_iff. intros [I|[[=]|[]]]; auto.
        - destruct it as [c|sp]; [destruct (is_integer (c_typ c))|destruct (w && bad_sep sp)%bool]; eauto. }
      eapply K; [|exact E2|exact I]. intros [].
    - apply in_app_iff in I as [I|I].
      + destruct (Nat.eqb (List.length ms) 1); [destruct I as [[=]|[]]|destruct I].
      + unfold subtype_pairs in I. apply in_flat_map in I as ([j a] & _ & I). apply in_flat_map in I as ([k b] & _ & I).
        destruct (_ && _)%bool in I; [destruct I as [[=]|[]]|destruct I].
    - unfold verify_array_type in I. destruct hi as [hi|]; [|destruct I].
      destruct (hi <? lo), (hi =? 0), ((hi =? 1) && (lo =? 1))%bool, ((hi =? 1) && (lo =? 0))%bool;
        cbn in I; destruct I as [[=]|[]] || destruct I. }
  split.
  - intros f Nf. rewrite F2, in_app_iff, L. split; auto. intros [?|I]; auto.
    apply H in I as (r & _ & -> & _). destruct (Nf r eq_refl).
  - intros r. rewrite F2, in_app_iff. split.
    + intros [I|I]; [apply L in I as (a & _ & I); destruct (NL r a I)|].
      apply H in I as (r' & rt & [= <-] & Io & Rr & Ab & k & Fi). exists rt. repeat split; auto.
      intros c S. assert (Ho : holds (exts s1) r c).
      { apply M1. split; auto. apply R. apply reach_in. apply (pr_recs _ _ P). destruct S as (ct & p & Rc & _).
        unfold rec in Rc. congruence. }
      destruct Ho as (k' & l & Fi' & Il). rewrite Fi in Fi'. injection Fi' as <- <-. destruct Il.
    + intros (rt & Rr & Ab & NS). right. apply H.
      assert (Io : In (TRec r) order) by (apply (pr_recs _ _ P); congruence).
      exists r, rt. repeat split; auto.
      assert (K : has_key r (exts s1) = true).
      { eapply M2; eauto. apply R. apply reach_in. auto. }
      apply has_key_find in K. destruct (find (fun p => Nat.eqb (fst p) r) (exts s1)) as [[k [|c l]]|] eqn:Fi; [eauto| |congruence].
      exfalso. apply (NS c). apply (M1 r c). exists k, (c :: l). split; auto. left. auto.
Qed.

(** *** C39: array types *)

(** What the reference manual recommends for bounds [lo .. hi] *)
Inductive array_verdict : Z -> Z -> (nat -> finding) -> Prop :=
| AV_below lo hi : hi < lo -> array_verdict lo hi F_upper_below
| AV_zero lo : lo <= 0 -> array_verdict lo 0 F_no_sense
| AV_one : array_verdict 1 1 F_fixed_one
| AV_optional : array_verdict 0 1 F_optional.

Lemma array_local i lo hi f :
  In f (found (verify_array_type i lo hi (LState [] [] []))) <->
  exists h m, hi = Some h /\ array_verdict lo h m /\ f = m i.
Proof.
  unfold verify_array_type. destruct hi as [h|]; cbn; [|split; [intros []|intros (h & m & [=] & _)]].
  assert (U : forall m, array_verdict lo h m -> In (m i) (found
    (if h <? lo then emit (F_upper_below i) (LState [] [] [])
     else if h =? 0 then emit (F_no_sense i) (LState [] [] [])
     else if (h =? 1) && (lo =? 1) then emit (F_fixed_one i) (LState [] [] [])
     else if (h =? 1) && (lo =? 0) then emit (F_optional i) (LState [] [] []) else LState [] [] []))).
  { intros m V. destruct V; cbn; auto.
    - destruct (Z.ltb_spec hi lo); [|lia]. cbn. auto.
    - destruct (Z.ltb_spec 0 lo); [lia|]. cbn. auto. }
  split; [|intros (h' & m & [= <-] & V & ->); auto].
  intros I. destruct (Z.ltb_spec h lo).
  { cbn in I. destruct I as [<-|[]]. exists h, F_upper_below. repeat split; auto. constructor; auto. }
  destruct (Z.eqb_spec h 0).
  { cbn in I. destruct I as [<-|[]]. exists h, F_no_sense. repeat split; auto. subst.
    constructor. auto. }
  destruct (Z.eqb_spec h 1); cbn in I; [subst|destruct I].
  destruct (Z.eqb_spec lo 1); cbn in I; [subst; destruct I as [<-|[]]; exists 1, F_fixed_one; repeat split; auto; constructor|].
  destruct (Z.eqb_spec lo 0); cbn in I; [subst; destruct I as [<-|[]]; exists 1, F_optional; repeat split; auto; constructor|destruct I].
Qed.

(** Each message about an array type is given iff a component with an array
    type with such bounds is declared; [i] identifies the type. *)
Theorem C39_arrays :
  forall G order s, program G order -> perform_sanity_checks G order = Ok s ->
    forall i m, (m = F_upper_below \/ m = F_no_sense \/ m = F_fixed_one \/ m = F_optional) ->
      In (m i) (found s) <->
      exists c lo hi el, component_of G c /\ c_typ c = TArr i lo (Some hi) el /\ array_verdict lo hi m.
Proof.
  intros G order s P E i m Hm. destruct (findings _ _ _ P E) as [F _].
  rewrite F by (intros r; destruct Hm as [-> |[-> |[-> | ->]]]; discriminate). split.
  - intros (a & Ia & Il). destruct a as [ | | | | |e|u|q|j ms|j lo hi el]; cbn in Il; try contradiction.
    + exfalso. destruct (tup G u) as [ut|]; [|contradiction].
      destruct (tuple_items G u (iter_sequence ut) false None (LState [] [] [])) as [s2| | |] eqn:E2; try contradiction.
      assert (K : forall items w bad (s0 s3 : lstate), ~ In (m i) (found s0) ->
                  tuple_items G u items w bad s0 = Ok s3 -> ~ In (m i) (found s3)).
      { clear - Hm. induction items as [|it items IH]; cbn; intros w bad s0 s3 N0 E3; [injection E3 as <-; auto|].
        destruct bad.
        - destruct it; [|discriminate].
          destruct (if is_integer (c_typ c) then Ok tt else example G (example_fuel G) (c_typ c)); try discriminate.
          cbn in E3. eapply IH; [|eauto]. cbn. rewrite in_app_iff. intros [I|[I|[]]]; auto.
          destruct Hm as [-> |[-> |[-> | ->]]]; discriminate.
        - destruct it as [c|sp]; [destruct (is_integer (c_typ c))|destruct (w && bad_sep sp)%bool]; eauto. }
      eapply K; [|exact E2|exact Il]. intros [].
    + exfalso. apply in_app_iff in Il as [I|I].
      * destruct (Nat.eqb (List.length ms) 1); [|destruct I]. destruct I as [I|[]]. destruct Hm as [-> |[-> |[-> | ->]]]; discriminate.
      * unfold subtype_pairs in I. apply in_flat_map in I as ([k a] & _ & I). apply in_flat_map in I as ([k' b] & _ & I).
        destruct (_ && _)%bool in I; [|destruct I]. destruct I as [I|[]]. destruct Hm as [-> |[-> |[-> | ->]]]; discriminate.
    + apply array_local in Il as (h & m' & -> & V & Q).
      assert (j = i /\ m' = m) as [-> ->].
      { destruct Hm as [-> |[-> |[-> | ->]]]; destruct V; try discriminate; injection Q as ->; auto. }
      destruct Ia as [Ia|(c & C & T)]; [apply (pr_only _ _ P) in Ia as [[? [=]]|[[? [=]]|[? [=]]]]|].
      exists c, lo, h, el. auto.
  - intros (c & lo & hi & el & C & T & V). exists (TArr i lo (Some hi) el). split; eauto.
    change (In (m i) (found (verify_array_type i lo (Some hi) (LState [] [] [])))). apply array_local. exists hi, m. auto.
Qed.
Print Assumptions C39_arrays.

(** An array type is not reported iff it has no upper bound or bounds that
    are possible and useful. *)
Theorem C39_unreported :
  forall i lo hi s, 0 <= lo ->
    found (verify_array_type i lo hi s) = found s <->
    forall h, hi = Some h -> lo <= h /\ 2 <= h.
Proof.
  intros i lo hi s Lo. destruct (array_found i lo hi s) as (_ & _ & F). cbn zeta in F.
  pose proof (array_local i lo hi) as A. split.
  - intros E h ->. rewrite F in E.
    assert (Nil : found (verify_array_type i lo (Some h) (LState [] [] [])) = []).
    { apply app_inv_head with (found s). rewrite app_nil_r. auto. }
    assert (No : forall m, ~ array_verdict lo h m).
    { intros m V. assert (I : In (m i) (found (verify_array_type i lo (Some h) (LState [] [] [])))) by (apply A; eauto).
      rewrite Nil in I. destruct I. }
    assert (lo <= h) by (destruct (Z_lt_le_dec h lo); auto; exfalso; eapply No; apply AV_below; auto).
    assert (h <> 0) by (intros ->; eapply No; apply AV_zero; lia).
    split; auto. destruct (Z.eq_dec h 1) as [->|]; [exfalso|lia].
    assert (lo = 0 \/ lo = 1) as [-> | ->] by lia; [apply (No F_optional), AV_optional|apply (No F_fixed_one), AV_one].
  - intros H. rewrite F.
    destruct (found (verify_array_type i lo hi (LState [] [] []))) as [|f l] eqn:El; [apply app_nil_r|exfalso].
    destruct (proj1 (A f)) as (h & m & -> & V & _); [left; auto|]. destruct (H h eq_refl) as (H1 & H2).
    destruct V; lia.
Qed.
Print Assumptions C39_unreported.

(** *** C40: abstract types *)

(** [c] extends [k], and all types between them are abstract. *)
Inductive through_abstract (G : types) : nat -> nat -> Prop :=
| ta_direct c k : extends G c k -> through_abstract G c k
| ta_more c p pt k : extends G c p -> nth_error (recs G) p = Some pt -> r_abstract pt = true ->
    through_abstract G p k -> through_abstract G c k.

Lemma upward_spec G p k kt : nth_error (recs G) k = Some kt -> r_abstract kt = true ->
  forall c, extends G c p -> upward G p k -> through_abstract G c k.
Proof.
  intros K Ab c X U. revert c X. induction U; intros c X.
  - constructor. auto.
  - eapply ta_more; eauto. apply IHU; auto. exists rt. auto.
Qed.
Lemma through_upward G c k kt : nth_error (recs G) k = Some kt -> r_abstract kt = true ->
  through_abstract G c k -> exists p, extends G c p /\ upward G p k.
Proof.
  intros K Ab T. induction T as [c k X|c p pt k X Ep Pa T IH].
  - exists k. split; auto. econstructor; eauto.
  - exists p. split; auto. destruct (IH K) as (q & (pt' & E' & P') & U). eapply up_more; eauto. congruence.
Qed.

Theorem C40_abstract_leaves :
  forall G order s, program G order -> perform_sanity_checks G order = Ok s ->
    forall r, In (F_abstract r) (found s) <->
      exists rt, nth_error (recs G) r = Some rt /\ r_abstract rt = true /\
        ~ exists c ct, nth_error (recs G) c = Some ct /\ r_abstract ct = false /\ through_abstract G c r.
Proof.
  intros G order s P E r. destruct (findings _ _ _ P E) as [_ F]. rewrite F. split.
  - intros (rt & R & Ab & N). exists rt. repeat split; auto. intros (c & ct & C & Ac & T).
    destruct (through_upward _ _ _ _ R Ab T) as (p & (ct' & C' & Pa) & U). apply (N c). exists ct, p.
    repeat split; auto. congruence.
  - intros (rt & R & Ab & N). exists rt. repeat split; auto. intros c (ct & p & C & Ac & Pa & U).
    apply N. exists c, ct. repeat split; auto. eapply upward_spec; eauto. exists ct. auto.
Qed.
Print Assumptions C40_abstract_leaves.

(** *** C46: exceptions, and ambiguous separators *)

(** Component [i] of a tuple is an integer, and the separator after it is
    [sep], an x or b *)
Definition ambiguous (ut : tuptype) (i : nat) (sep : text) : Prop :=
  exists c sp, nth_error (u_comps ut) i = Some c /\ c_typ c = TInt /\
    nth_error (u_seps ut) i = Some sp /\ sep = sep_text sp /\ (sep = t "x" \/ sep = t "b").

Lemma universe_reach G order a : program G order -> In a (universe G order) ->
  In a order \/ exists c, component_of G c /\ c_typ c = a.
Proof.
  intros P.
  assert (L : forall a, In a (order ++ component_types G) -> In a order \/ exists c, component_of G c /\ c_typ c = a).
  { clear a. intros a I. apply in_app_iff in I as [I|I]; auto. right. unfold component_types in I.
    apply in_app_iff in I as [I|I]; apply in_flat_map in I as (x & Ix & I); apply in_map_iff in I as (c & <- & I);
      exists c; split; auto; apply In_nth_error in Ix as [k Ix]; [left|right]; eauto. }
  unfold universe. intros I. apply in_app_iff in I as [I|I]; auto.
  apply in_flat_map in I as (x & Ix & I). destruct x; cbn in I; try contradiction.
  apply in_map_iff in I as (m & <- & I). left. apply (pr_recs _ _ P).
  apply L in Ix as [Ix|(c & C & T)]; [apply (pr_only _ _ P) in Ix as [[? [=]]|[[? [=]]|[? [=]]]]|].
  pose proof (pr_known _ _ P c C) as K. rewrite T in K. apply K. auto.
Qed.

(** There can be an exception (LintRun.v says exactly when): an assertion in
    line 114 for another separator after the ambiguous one, *)
Definition x_comp (n : text) (a : ty) : component := Comp n a false (TTup 0).
Definition x_three : types := Types []
  [TupType 0 (t "T") [x_comp (t "a") TInt; x_comp (t "b") TInt; x_comp (t "c") TInt] [Sep_word (t "x"); Sep_colon] []] [].
Definition x_enum : types := Types []
  [TupType 0 (t "T") [x_comp (t "a") TInt; x_comp (t "b") (TEnum 0)] [Sep_word (t "b")] []]
  [EnumType 0 (t "E") [t "low"; t "high"]].
Lemma x_program (G : types) (order : list ty) : recs G = [] -> (exists ut, tups G = [ut] /\
    (forall c, In c (u_comps ut) -> c_typ c = TInt \/ exists e, c_typ c = TEnum e) /\
    List.length (u_comps ut) = S (List.length (u_seps ut))) ->
  In (TTup 0) order -> (forall a, In a order -> a = TTup 0 \/ exists e, a = TEnum e) -> NoDup order -> program G order.
Proof.
  intros R (ut & U & C & Ln) J0 O N. constructor; auto.
  - intros r p (rt & E & _). rewrite R in E. destruct r; discriminate.
  - intros c [(r & rt & E & _)|(u & ut' & E & Ic)]; [rewrite R in E; destruct r; discriminate|].
    rewrite U in E. destruct u as [|u]; [|destruct u; discriminate]. injection E as <-.
    destruct (C c Ic) as [-> |[e ->]]; exact Logic.I.
  - intros u ut' E. rewrite U in E. destruct u as [|u]; [|destruct u; discriminate]. injection E as <-. auto.
  - intros r. rewrite R. split; [destruct r; cbn; congruence|]. intros J. apply O in J as [[=]|[e [=]]].
  - intros u. rewrite U. split; [destruct u as [|u]; [auto|destruct u; cbn; congruence]|].
    intros J. apply O in J as [[= ->]|[e [=]]]. cbn. discriminate.
  - intros a J. apply O in J as [-> |[e ->]]; eauto.
Qed.
Theorem C46_assertion_refuted : exists G order, program G order /\ perform_sanity_checks G order = Crash.
Proof.
  exists x_three, [TTup 0]. split; [|reflexivity].
  apply x_program; cbn; auto; [|intros a [<-|[]]; auto|repeat constructor; auto].
  eexists. split; [reflexivity|]. split; auto. cbn. intros c [<-|[<-|[<-|[]]]]; auto.
Qed.
Print Assumptions C46_assertion_refuted.
(** and an AttributeError in ast.py:3188 for an enumeration after it. *)
Theorem C46_enumeration_refuted : exists G order, program G order /\ perform_sanity_checks G order = Crash /\
  forall u ut i sep, nth_error (tups G) u = Some ut -> ambiguous ut i sep -> S i = List.length (u_seps ut).
Proof.
  exists x_enum, [TEnum 0; TTup 0]. split; [|split; [reflexivity|]].
  - apply x_program; cbn; auto.
    + eexists. split; [reflexivity|]. split; auto. cbn. intros c [<-|[<-|[]]]; cbn; eauto.
    + intros a [<-|[<-|[]]]; eauto.
    + repeat constructor; cbn; intuition discriminate.
  - intros u ut i sep E (c & sp & _ & _ & N & _). destruct u as [|[|u]]; try discriminate. injection E as <-. cbn in *.
    destruct i as [|[|i]]; auto; discriminate.
Qed.
Print Assumptions C46_enumeration_refuted.

(** A separator is reported iff it is an x or b after an integer component. *)
Theorem C46_separators :
  forall G order s, program G order -> perform_sanity_checks G order = Ok s ->
    forall u sep, In (F_separator u sep) (found s) <->
      exists ut i, nth_error (tups G) u = Some ut /\ ambiguous ut i sep.
Proof.
  intros G order s P E u sep. destruct (findings _ _ _ P E) as [F _]. rewrite F by discriminate.
  assert (Loc : forall ut, tup G u = Some ut -> forall s2,
     tuple_items G u (iter_sequence ut) false None (LState [] [] []) = Ok s2 ->
     forall f, In f (found s2) <-> exists i sep, ambiguous ut i sep /\ f = F_separator u sep).
  { intros ut U s2 E2 f. unfold iter_sequence in E2.
    destruct (pr_seps _ _ P u ut U) as [Nil|Len].
    - destruct (tuple_items_spec G u (u_comps ut) (u_seps ut) false (LState [] [] [])) as [A _]; [rewrite Nil; cbn; lia|].
      rewrite A in E2; [|rewrite Nil; intros i x (? & ? & _ & _ & N & _); destruct i; discriminate].
      injection E2 as <-. cbn. split; [intros []|]. intros (i & x & (? & ? & _ & _ & N & _) & _). rewrite Nil in N.
      destruct i; discriminate.
    - destruct (tuple_items_spec G u (u_comps ut) (u_seps ut) false (LState [] [] [])) as [_ B]; [lia|].
      rewrite (B _ E2 Len f). cbn. unfold bad_in, ambiguous. split; [intros [[]|?]; auto|auto]. }
  split.
  - intros (a & Ia & Il). destruct a as [ | | | | |e|v|q|j ms|j lo hi el]; cbn in Il; try contradiction.
    + destruct (tup G v) as [ut|] eqn:U; [|contradiction].
      destruct (tuple_items G v (iter_sequence ut) false None (LState [] [] [])) as [s2| | |] eqn:E2; try contradiction.
      assert (v = u) as ->.
      { clear - E2 Il. assert (K : forall items w bad (s0 s3 : lstate), (In (F_separator u sep) (found s0) -> v = u) ->
                    tuple_items G v items w bad s0 = Ok s3 -> In (F_separator u sep) (found s3) -> v = u).
        { induction items as [|it items IH]; cbn; intros w bad s0 s3 N0 E3; [injection E3 as <-; auto|].
          destruct bad.
          - destruct it; [|discriminate].
            destruct (if is_integer (c_typ c) then Ok tt else example G (example_fuel G) (c_typ c)); try discriminate.
            cbn in E3. eapply IH; [|eauto]. cbn. rewrite in_app_iff. intros [I|[[= -> _]|[]]]; auto.
          - destruct it as [c|sp]; [destruct (is_integer (c_typ c))|destruct (w && bad_sep sp)%bool]; eauto. }
        eapply K; [|exact E2|exact Il]. intros []. }
      apply (Loc ut U s2 E2) in Il as (i & x & Am & [= ->]). exists ut, i. auto.
    + exfalso. apply in_app_iff in Il as [I|I].
      * destruct (Nat.eqb (List.length ms) 1); [destruct I as [[=]|[]]|destruct I].
      * unfold subtype_pairs in I. apply in_flat_map in I as ([k a] & _ & I). apply in_flat_map in I as ([k' b] & _ & I).
        destruct (_ && _)%bool in I; [destruct I as [[=]|[]]|destruct I].
    + exfalso. apply array_local in Il as (h & m & _ & V & Q). destruct V; discriminate.
  - intros (ut & i & U & Am). exists (TTup u). split; [left; apply (pr_tups _ _ P); congruence|].
    cbn. unfold tup. rewrite U.
    destruct (tuple_items G u (iter_sequence ut) false None (LState [] [] [])) as [s2|x| |] eqn:E2; [apply (Loc ut U s2 E2); eauto| | |];
      exfalso; revert E; unfold perform_sanity_checks; intros E;
      destruct (verify_all _ _ _ _) as [s1| | |] eqn:E1; try discriminate;
      (assert (T : through G s1)
        by (rewrite verify_all_eq in E1; eapply all_through; [apply verify_through|exact E1|]; intros ? ? []));
      apply verify_all_end in E1 as (R & _);
      (destruct (T u ut) as [s3 E3]; [apply R, reach_in, (pr_tups _ _ P); congruence|exact U|congruence]).
Qed.
Print Assumptions C46_separators.

(** *** C47: union types *)
Lemma in_combine_seq {A} (l : list A) : forall n j a, In (j, a) (combine (seq n (List.length l)) l) <->
  exists k, j = (n + k)%nat /\ nth_error l k = Some a.
Proof.
  induction l as [|x l IH]; intros n j a; cbn.
  - split; [intros []|]. intros (k & _ & N). destruct k; discriminate.
  - rewrite IH. split.
    + intros [[= <- <-]|(k & -> & N)]; [exists 0%nat|exists (S k)]; split; cbn; auto; lia.
    + intros ([|k] & -> & N); [left; injection N as ->; f_equal; lia|right; exists k; split; auto; lia].
Qed.
Lemma subtype_pairs_spec G i ms f : wf_types G -> In f (subtype_pairs G i ms) <->
  exists a b, f = F_union_subtype i a b /\ In a ms /\ In b ms /\ a <> b /\ clos_refl_trans nat (extends G) a b.
Proof.
  intros wf. unfold subtype_pairs. rewrite in_flat_map. split.
  - intros ([j a] & Ia & I). apply in_flat_map in I as ([k b] & Ib & I).
    destruct (_ && _)%bool eqn:E in I; [|destruct I]. destruct I as [<-|[]].
    apply andb_true_iff in E as [E Sub]. apply andb_true_iff in E as [_ Ne].
    apply negb_true_iff, Nat.eqb_neq in Ne. apply (subclass_spec G wf) in Sub.
    apply in_combine_r in Ia. apply in_combine_r in Ib. exists a, b. auto.
  - intros (a & b & -> & Ia & Ib & Ne & Sub).
    apply In_nth_error in Ia as [j Ja]. apply In_nth_error in Ib as [k Kb].
    exists (j, a). split; [apply in_combine_seq; exists j; auto|]. apply in_flat_map.
    exists (k, b). split; [apply in_combine_seq; exists k; auto|].
    assert (j <> k) by congruence. apply Nat.eqb_neq in H. apply Nat.eqb_neq in Ne. rewrite H, Ne. cbn.
    apply (subclass_spec G wf) in Sub. rewrite Sub. left. auto.
Qed.

Theorem C47_unions :
  forall G order s, program G order -> perform_sanity_checks G order = Ok s ->
    (forall i, In (F_union_single i) (found s) <->
       exists c m, component_of G c /\ c_typ c = TUnion i [m]) /\
    (forall i a b, In (F_union_subtype i a b) (found s) <->
       exists c ms, component_of G c /\ c_typ c = TUnion i ms /\ In a ms /\ In b ms /\ a <> b /\
         clos_refl_trans nat (extends G) a b).
Proof.
  intros G order s P E. destruct (findings _ _ _ P E) as [F _].
  assert (K : forall f, (exists i, f = F_union_single i) \/ (exists i a b, f = F_union_subtype i a b) ->
     In f (found s) <-> exists c i ms, component_of G c /\ c_typ c = TUnion i ms /\
       In f ((if Nat.eqb (List.length ms) 1 then [F_union_single i] else []) ++ subtype_pairs G i ms)).
  { intros f Hf. rewrite F by (intros r; destruct Hf as [[i ->]|(i & a & b & ->)]; discriminate). split.
    - intros (a & Ia & Il). destruct a as [ | | | | |e|u|q|j ms|j lo hi el]; cbn in Il; try contradiction.
      + exfalso. destruct (tup G u) as [ut|]; [|contradiction].
        destruct (tuple_items G u (iter_sequence ut) false None (LState [] [] [])) as [s2| | |] eqn:E2; try contradiction.
        assert (K : forall items w bad (s0 s3 : lstate), ~ In f (found s0) ->
                    tuple_items G u items w bad s0 = Ok s3 -> ~ In f (found s3)).
        { clear - Hf. induction items as [|it items IH]; cbn; intros w bad s0 s3 N0 E3; [injection E3 as <-; auto|].
          destruct bad.
          - destruct it; [|discriminate].
            destruct (if is_integer (c_typ c) then Ok tt else example G (example_fuel G) (c_typ c)); try discriminate.
            cbn in E3. eapply IH; [|eauto]. cbn. rewrite in_app_iff. intros [I|[I|[]]]; auto.
            destruct Hf as [[i0 ->]|(i0 & a0 & b0 & ->)]; discriminate.
          - destruct it as [c|sp]; [destruct (is_integer (c_typ c))|destruct (w && bad_sep sp)%bool]; eauto. }
        eapply K; [|exact E2|exact Il]. intros [].
      + destruct Ia as [Ia|(c & C & T)]; [apply (pr_only _ _ P) in Ia as [[? [=]]|[[? [=]]|[? [=]]]]|].
        exists c, j, ms. auto.
      + exfalso. apply array_local in Il as (h & m & _ & V & Q).
        destruct Hf as [[i ->]|(i & a' & b & ->)]; destruct V; discriminate.
    - intros (c & i & ms & C & T & I). exists (TUnion i ms). split; eauto. }
  split.
  - intros i. rewrite K by eauto. split.
    + intros (c & j & ms & C & T & I). apply in_app_iff in I as [I|I].
      * destruct (Nat.eqb_spec (List.length ms) 1) as [L|]; [|destruct I]. destruct I as [[= ->]|[]].
        destruct ms as [|m [|]]; try discriminate. exists c, m. auto.
      * apply subtype_pairs_spec in I as (a & b & [=] & _). apply (pr_wf _ _ P).
    + intros (c & m & C & T). exists c, i, [m]. repeat split; auto. left. auto.
  - intros i a b. rewrite K by eauto 6. split.
    + intros (c & j & ms & C & T & I). apply in_app_iff in I as [I|I].
      * destruct (Nat.eqb (List.length ms) 1); [destruct I as [[=]|[]]|destruct I].
      * apply subtype_pairs_spec in I as (a' & b' & [= -> -> ->] & H); [|apply (pr_wf _ _ P)]. exists c, ms. tauto.
    + intros (c & ms & C & T & H). exists c, i, ms. repeat split; auto. apply in_app_iff. right.
      apply subtype_pairs_spec; [apply (pr_wf _ _ P)|]. exists a, b. tauto.
Qed.
Print Assumptions C47_unions.

(** *** An example with a finding of each kind *)
Definition z_comp (r : nat) (n : text) (a : ty) : component := Comp n a false (TRec r).
Definition zG : types := Types
  [RecType 0 (t "Top") None [z_comp 0 (t "a") (TArr 0 3 (Some 2) TInt); z_comp 0 (t "b") (TArr 1 0 (Some 0) TStr)] [] false true [];
   RecType 0 (t "Mid") (Some 0%nat) [z_comp 1 (t "c") (TArr 2 1 (Some 1) TInt)] [] false true [];
   RecType 0 (t "Leaf") (Some 1%nat) [z_comp 2 (t "d") (TArr 3 0 (Some 1) (TTup 0)); z_comp 2 (t "e") (TUnion 0 [3; 2]%nat)] [] false false [];
   RecType 0 (t "Low") (Some 2%nat) [z_comp 3 (t "f") (TUnion 1 [0]%nat); z_comp 3 (t "g") (TArr 4 2 (Some 5) TInt)] [] false false [];
   RecType 0 (t "Bare") (Some 2%nat) [] [] false true []]
  [TupType 0 (t "T") [Comp (t "h") TInt false (TTup 0); Comp (t "i") TDec true (TTup 0)] [Sep_word (t "x")] []] [].
Definition z_order : list ty := [TRec 0; TTup 0; TRec 1; TRec 2; TRec 3; TRec 4].
Lemma z_program : program zG z_order.
Proof.
  constructor.
  - intros r p (rt & E & Q). do 5 (destruct r as [|r]; [injection E as <-; cbn in Q; try discriminate; injection Q as <-; lia|]).
    destruct r; discriminate.
  - intros c [(r & rt & E & I)|(u & ut & E & I)].
    + do 5 (destruct r as [|r]; [injection E as <-; cbn in I;
        repeat (destruct I as [<-|I]; [cbn; auto; try (intros m M; cbn in M;
          repeat (destruct M as [<-|M]; [discriminate|]); destruct M)|]); destruct I|]).
      destruct r; discriminate.
    + destruct u as [|[|u]]; try discriminate. injection E as <-. cbn in I. destruct I as [<-|[<-|[]]]; exact Logic.I.
  - intros [|[|u]] ut E; try discriminate. injection E as <-. right. reflexivity.
  - intros r. do 5 (destruct r as [|r]; [split; [cbn; auto 8|discriminate]|]).
    split; [destruct r; intros N; destruct N; reflexivity|]. intros I. cbn in I.
    repeat (destruct I as [I|I]; [discriminate|]). destruct I.
  - intros u. destruct u as [|u]; [split; [cbn; auto|discriminate]|].
    split; [destruct u; intros N; destruct N; reflexivity|]. intros I. cbn in I.
    repeat (destruct I as [I|I]; [discriminate|]). destruct I.
  - intros a I. cbn in I. repeat (destruct I as [<-|I]; [eauto|]). destruct I.
  - repeat constructor; cbn; intros I; repeat (destruct I as [I|I]; [discriminate|]); destruct I.
Qed.
Example lint_example : exists s, perform_sanity_checks zG z_order = Ok s /\
  found s = [F_upper_below 0; F_no_sense 1; F_separator 0 (t "x"); F_fixed_one 2; F_optional 3;
             F_union_subtype 0 3 2; F_union_single 1; F_abstract 4]%nat.
Proof. eexists. split; [vm_compute; reflexivity|]. vm_compute. reflexivity. Qed.
