(** Source manager: closure, order, result. *)
From Coq Require Import ZifyBool ZifyNat Permutation Relations.
From Verif Require Import Base SymTab SourceMan.
Open Scope nat_scope.

(** ** Sets as lists *)

Lemma fkind_eqb_eq a b : fkind_eqb a b = true <-> a = b.
Proof. destruct a, b; cbn; split; congruence. Qed.

Lemma node_eqb_eq a b : node_eqb a b = true <-> a = b.
Proof.
  destruct a as [a k], b as [b l]. unfold node_eqb. cbn. rewrite andb_true_iff, text_eqb_eq, fkind_eqb_eq.
  split; [intros [-> ->]; auto|intros E; injection E; auto].
Qed.

Lemma mem_In n l : mem n l = true <-> In n l.
Proof.
  unfold mem. rewrite existsb_exists. split.
  - intros (x & I & E). apply node_eqb_eq in E. subst; auto.
  - intros I. exists n. split; auto. apply node_eqb_eq; auto.
Qed.

Lemma mem_false n l : mem n l = false <-> ~ In n l.
Proof. rewrite <- mem_In. destruct (mem n l); intuition congruence. Qed.

Lemma name_mem_In n l : name_mem n l = true <-> In n l.
Proof.
  unfold name_mem. rewrite existsb_exists. split.
  - intros (x & I & E). apply text_eqb_eq in E. subst; auto.
  - intros I. exists n. split; auto. apply text_eqb_eq; auto.
Qed.

Lemma node_dec (a b : node) : {a = b} + {a <> b}.
Proof.
  destruct (node_eqb a b) eqn:E; [left|right]; [apply node_eqb_eq; auto|].
  intros ->. assert (node_eqb b b = true) by (apply node_eqb_eq; auto). congruence.
Qed.

Lemma add_set_In l acc n : In n (add_set l acc) <-> In n acc \/ In n l.
Proof.
  revert acc. induction l as [|m l IH]; intros acc; cbn; [tauto|].
  destruct (mem m acc) eqn:M; rewrite IH.
  - apply mem_In in M. intuition (subst; auto).
  - rewrite in_app_iff. cbn. intuition.
Qed.

Lemma NoDup_snoc {A} (l : list A) x : NoDup l -> ~ In x l -> NoDup (l ++ [x]).
Proof.
  intros N I. apply NoDup_rev in N. rewrite <- (rev_involutive (l ++ [x])). apply NoDup_rev.
  rewrite rev_app_distr. cbn. constructor; auto. rewrite <- in_rev; auto.
Qed.

Lemma add_set_NoDup l acc : NoDup acc -> NoDup (add_set l acc).
Proof.
  revert acc. induction l as [|m l IH]; intros acc N; cbn; auto.
  destruct (mem m acc) eqn:M; auto. apply IH, NoDup_snoc; auto. apply mem_false; auto.
Qed.

Lemma NoDup_app_iff {A} (a b : list A) :
  NoDup (a ++ b) <-> NoDup a /\ NoDup b /\ forall x, In x a -> ~ In x b.
Proof.
  induction a as [|x a IH]; cbn.
  - split; [intros N; split; [constructor|auto]|tauto].
  - split.
    + intros N. inversion N; subst. apply IH in H2 as (Na & Nb & D). rewrite in_app_iff in H1.
      split; [constructor; auto|split; auto]. intros y [<-|I]; auto.
    + intros (Na & Nb & D). inversion Na; subst. constructor.
      * rewrite in_app_iff. intros [I|I]; auto. apply (D x); auto.
      * apply IH. auto.
Qed.

Lemma nth_remove {A} (l : list A) k d : k < length l -> Permutation l (nth k l d :: remove_nth k l).
Proof.
  revert k. induction l as [|x l IH]; intros k L; cbn in L; [lia|].
  destruct k; cbn; auto. rewrite (IH k) at 1 by lia. apply perm_swap.
Qed.

(** ** The closure *)

Section CLOSURE.
Variable g : graph.
Let edge (a b : node) : Prop := In b (gget g a) /\ In b (gdom g).
Definition reach (a b : node) : Prop := clos_refl_trans node (fun a b => In b (gget g a) /\ In b (gdom g)) a b.

Lemma closure_spec pick init : forall fuel work required,
  NoDup (work ++ required) -> incl (work ++ required) (gdom g) ->
  length (gdom g) < fuel + length required ->
  (forall n, In n init -> In n (work ++ required)) ->
  (forall n, In n (work ++ required) -> exists w, In w init /\ reach w n) ->
  (forall n m, In n required -> edge n m -> In m (work ++ required)) ->
  exists r, closure pick fuel g work required = Some r /\ NoDup r /\ incl r (gdom g) /\
            forall n, In n r <-> exists w, In w init /\ reach w n.
Proof.
  induction fuel as [|f IH]; intros work required N I L Hi Hr Hc.
  - destruct work as [|w0 work].
    + cbn [app] in *. exists required. repeat split; auto.
      intros (w & Iw & R). apply Hi in Iw. clear Hr. induction R as [a b E|a|a b c R1 IH1 R2 IH2]; auto.
      eapply Hc; eauto.
    + pose proof (NoDup_incl_length N I) as Le. rewrite app_length in Le. cbn in Le. lia.
  - destruct work as [|w0 work'].
    + cbn [app] in *. exists required. cbn. repeat split; auto.
      intros (w & Iw & R). apply Hi in Iw. clear Hr. induction R as [a b E|a|a b c R1 IH1 R2 IH2]; auto.
      eapply Hc; eauto.
    + cbn [closure]. set (work := w0 :: work') in *.
      set (k := pick work mod length work).
      assert (Lk : k < length work) by (apply Nat.mod_upper_bound; discriminate).
      set (n := nth k work w0).
      pose proof (nth_remove work k w0 Lk) as P. fold n in P.
      set (rest := remove_nth k work) in *.
      set (new := filter (fun m => negb (mem m (n :: required)) && mem m (gdom g)) (gget g n)).
      assert (Q : Permutation (work ++ required) (rest ++ n :: required)).
      { rewrite P. cbn. apply Permutation_middle. }
      assert (Nn : NoDup (rest ++ n :: required)) by (eapply Permutation_NoDup; eauto).
      assert (In' : forall m, In m (add_set new rest ++ n :: required) <-> In m (work ++ required) \/ In m new).
      { intros m. rewrite in_app_iff, add_set_In.
        assert (In m (work ++ required) <-> In m (rest ++ n :: required)) as ->.
        { split; apply Permutation_in; auto. apply Permutation_sym; auto. }
        rewrite in_app_iff. tauto. }
      assert (New : forall m, In m new <-> In m (gget g n) /\ ~ In m (n :: required) /\ In m (gdom g)).
      { intros m. unfold new. rewrite filter_In, andb_true_iff, negb_true_iff, mem_false, mem_In. tauto. }
      assert (Inn : In n (work ++ required)).
      { apply in_app_iff. left. apply nth_In; auto. }
      apply IH.
      * apply NoDup_app_iff in Nn as (Nr & Nq & Dj). apply NoDup_app_iff. split; [|split].
        -- apply add_set_NoDup. auto.
        -- auto.
        -- intros m M1 M2. apply add_set_In in M1 as [M1|M1].
           ++ exact (Dj m M1 M2).
           ++ apply New in M1. tauto.
      * intros m M. apply In' in M as [M|M]; auto. apply New in M. tauto.
      * cbn [length]. lia.
      * intros m M. apply In'. auto.
      * intros m M. apply In' in M as [M|M]; auto.
        destruct (Hr n Inn) as (w & Iw & R). exists w. split; auto.
        eapply rt_trans; eauto. apply rt_step. apply New in M. tauto.
      * intros a m [<-|Ia] E.
        -- destruct (in_dec node_dec m (n :: required)) as [D|D].
           ++ apply in_app_iff; auto.
           ++ apply In'. right. apply New. destruct E; auto.
        -- apply In'. left. eapply Hc; eauto.
Qed.
End CLOSURE.

(** ** The order of parsing *)

Lemma insert_perm n l : Permutation (n :: l) (insert n l).
Proof.
  induction l as [|m l IH]; cbn; auto. destruct (text_leb (fst n) (fst m)); auto.
  rewrite perm_swap. constructor. auto.
Qed.

Lemma sort_perm l : Permutation l (sort l).
Proof. induction l as [|n l IH]; cbn; auto. rewrite <- insert_perm. constructor. auto. Qed.

Lemma filter_split {A} (f : A -> bool) l : Permutation l (filter f l ++ filter (fun x => negb (f x)) l).
Proof.
  induction l as [|x l IH]; cbn; auto. destruct (f x); cbn.
  - constructor. auto.
  - rewrite IH at 1. apply Permutation_middle.
Qed.

Lemma filter_ext_in {A} (f h : A -> bool) l : (forall x, In x l -> f x = h x) -> filter f l = filter h l.
Proof.
  induction l as [|x l IH]; cbn; intros E; auto. rewrite (E x) by auto. rewrite IH by (intros; apply E; auto). auto.
Qed.

(** In [order], everything [n] depends on comes before [n] (or was there before). *)
Definition ordered (g : graph) (before order : list node) : Prop :=
  forall a n b, order = a ++ n :: b -> forall d, In d (gget g n) -> In d (before ++ a).

Lemma app_eq_cases {A} (l1 l2 a : list A) n b : l1 ++ l2 = a ++ n :: b ->
  (exists b', l1 = a ++ n :: b' /\ b = b' ++ l2) \/ (exists a', a = l1 ++ a' /\ l2 = a' ++ n :: b).
Proof.
  revert a. induction l1 as [|x l1 IH]; intros a E; cbn in E.
  - right. exists a. auto.
  - destruct a as [|y a]; cbn in E; injection E as -> E.
    + left. exists l1. auto.
    + destruct (IH a E) as [(b' & -> & ->)|(a' & -> & ->)]; [left|right]; eexists; split; reflexivity.
Qed.

Section WAVES.
Variable g : graph.

Lemma waves_spec : forall fuel work processed, NoDup work -> length work < fuel ->
  exists order cyc, waves fuel g work processed = Some (order, cyc) /\
    NoDup order /\ incl order work /\ ordered g processed order /\
    (cyc = false -> Permutation order work) /\
    (cyc = true -> exists n, In n work /\ ~ In n order) /\
    (cyc = true -> forall n, In n work -> ~ In n order ->
       exists d, In d (gget g n) /\ ~ In d (processed ++ order)).
Proof.
  induction fuel as [|f IH]; intros work processed N L; [lia|].
  assert (W : work = [] \/ work <> []) by (destruct work; [left|right]; congruence).
  destruct W as [->|W].
  { exists [], false. split; [auto|]. split; [constructor|]. split; [intros x []|].
    split; [intros [|z zs] n b E; discriminate|]. repeat split; try discriminate; constructor. }
  set (ready := fun n => forallb (fun d => mem d processed) (gget g n)).
  assert (Rd : forall n, ready n = true <-> forall d, In d (gget g n) -> In d processed).
  { intros n. unfold ready. rewrite forallb_forall. setoid_rewrite mem_In. tauto. }
  set (cand := filter ready work).
  set (rest := filter (fun n => negb (mem n cand)) work).
  replace (waves (S f) g work processed) with
    (match cand with
     | [] => Some ([], true)
     | _ => match waves f g rest (processed ++ sort cand) with
            | Some (order, cyc) => Some (sort cand ++ order, cyc)
            | None => None
            end
     end) by (destruct work; [congruence|reflexivity]).
  assert (C : cand = [] \/ cand <> []) by (destruct cand; [left|right]; congruence).
  destruct C as [C|C].
  { rewrite C. exists [], true. split; [auto|]. split; [constructor|]. split; [intros x []|].
    split; [intros [|z zs] n b E; discriminate|]. split; [discriminate|]. split.
    - intros _. destruct work as [|w work]; [congruence|]. exists w. split; [left; auto|intros []].
    - intros _ n I _. assert (F : ready n = false).
      { destruct (ready n) eqn:R; auto. enough (H : In n cand) by (rewrite C in H; contradiction).
        apply filter_In; auto. }
      unfold ready in F. clear - F. rewrite app_nil_r. induction (gget g n) as [|d l IH]; [discriminate|].
      cbn in F. destruct (mem d processed) eqn:M.
      + destruct IH as (d' & I & D); auto. exists d'. split; auto. right; auto.
      + exists d. split; [left; auto|]. apply mem_false; auto. }
  assert (Rest : rest = filter (fun n => negb (ready n)) work).
  { apply filter_ext_in. intros n I. f_equal. destruct (ready n) eqn:R.
    - apply mem_In. apply filter_In; auto.
    - apply mem_false. intros I'. apply filter_In in I'. destruct I'; congruence. }
  pose proof (filter_split ready work) as P. fold cand in P. rewrite <- Rest in P.
  pose proof (sort_perm cand) as Ps.
  assert (N2 : NoDup (cand ++ rest)) by (eapply Permutation_NoDup; eauto).
  apply NoDup_app_iff in N2 as (Nc & Nr & Dj).
  assert (Len : length rest < f).
  { apply Permutation_length in P. rewrite app_length in P. destruct cand; [congruence|]. cbn in P. lia. }
  destruct (IH rest (processed ++ sort cand) Nr Len) as (order & cyc & E & No & Inc & Ord & Cf & Ct1 & Ct2).
  exists (sort cand ++ order), cyc.
  assert (Sc : forall x, In x (sort cand) <-> In x cand).
  { intros x. split; apply Permutation_in; auto. apply Permutation_sym; auto. }
  split; [|split; [|split; [|split; [|split; [|split]]]]].
  - rewrite E. destruct cand; [congruence|reflexivity].
  - apply NoDup_app_iff. repeat split; auto.
    + eapply Permutation_NoDup; eauto.
    + intros x I1 I2. apply Sc in I1. apply Inc in I2. exact (Dj x I1 I2).
  - intros x I. apply in_app_iff in I as [I|I].
    + apply Sc in I. apply filter_In in I. tauto.
    + apply Inc in I. apply filter_In in I. tauto.
  - intros a n b Eq d D.
    destruct (app_eq_cases (sort cand) order a n b Eq) as [(b' & E1 & E2)|(a' & E1 & E2)].
    + apply in_app_iff. left. assert (In n cand) by (apply Sc; rewrite E1; apply in_elt).
      apply filter_In in H as [_ R]. apply (proj1 (Rd n) R); auto.
    + subst a. rewrite app_assoc. eapply Ord; eauto.
  - intros F. rewrite P. apply Permutation_app; auto. apply Permutation_sym; auto.
  - intros T. destruct (Ct1 T) as (n & I & D). exists n. pose proof I as I'. apply filter_In in I as [I I2].
    split; auto. rewrite in_app_iff. intros [K|K]; auto. apply Sc in K. exact (Dj n K I').
  - intros T n I D. rewrite in_app_iff in D. assert (In n rest).
    { apply (Permutation_in _ P) in I. apply in_app_iff in I as [I|I]; auto. exfalso. apply D. left. apply Sc; auto. }
    destruct (Ct2 T n H) as (d & Dd & Nd); auto. exists d. split; auto. rewrite app_assoc. auto.
Qed.

(** A finite set in which everything has a successor contains a cycle. *)
Definition path1 (R : list node) : node -> node -> Prop :=
  clos_trans node (fun a b => In a R /\ In b R /\ In b (gget g a)).

Lemma cycle_exists (R : list node) : R <> [] ->
  (forall n, In n R -> exists d, In d (gget g n) /\ In d R) ->
  exists n, In n R /\ path1 R n n.
Proof.
  intros NE Succ.
  assert (forall m, (exists n, In n R /\ path1 R n n) \/
    exists x l, length (x :: l) = S m /\ NoDup (x :: l) /\ incl (x :: l) R /\ forall y, In y l -> path1 R y x).
  { induction m as [|m IH].
    - right. destruct R as [|x R']; [congruence|]. exists x, []. repeat split; auto.
      + repeat constructor; auto.
      + intros y [<-|[]]. left; auto.
      + intros y [].
    - destruct IH as [IH|(x & l & Len & Nd & Inc & Pa)]; auto.
      destruct (Succ x (Inc x (or_introl eq_refl))) as (d & D1 & D2).
      assert (Step : path1 R x d) by (apply t_step; repeat split; auto; apply Inc; left; auto).
      destruct (in_dec node_dec d (x :: l)) as [I|I].
      + left. exists d. split; auto. destruct I as [<-|I]; auto.
        eapply t_trans; [apply Pa; eauto|auto].
      + right. exists d, (x :: l). repeat split.
        * cbn in *. lia.
        * constructor; auto.
        * intros y [<-|Iy]; auto.
        * intros y [<-|Iy]; auto. eapply t_trans; [apply Pa; auto|auto]. }
  destruct (H (length R)) as [C|(x & l & Len & Nd & Inc & _)]; auto.
  pose proof (NoDup_incl_length Nd Inc). lia.
Qed.

(** If all dependencies are in the work set, a cycle is reported iff there is one. *)
Lemma waves_cycle fuel work : NoDup work -> length work < fuel ->
  (forall n d, In n work -> In d (gget g n) -> In d work) ->
  forall order cyc, waves fuel g work [] = Some (order, cyc) ->
  (cyc = true <-> exists n, In n work /\ path1 work n n).
Proof.
  intros N L Cl order cyc E.
  destruct (waves_spec fuel work [] N L) as (order' & cyc' & E' & No & Inc & Ord & Cf & Ct1 & Ct2).
  rewrite E in E'. injection E' as <- <-. cbn [app] in *. split.
  - intros T. set (R := filter (fun n => negb (mem n order)) work).
    assert (InR : forall n, In n R <-> In n work /\ ~ In n order).
    { intros n. unfold R. rewrite filter_In, negb_true_iff, mem_false. tauto. }
    destruct (cycle_exists R) as (n & In1 & Pn).
    + destruct (Ct1 T) as (n & I & D). intros Re. assert (In n R) by (apply InR; auto). rewrite Re in H. contradiction.
    + intros n I. apply InR in I as [I D]. destruct (Ct2 T n I D) as (d & Dd & Nd). exists d. split; auto.
      apply InR. split; auto. eapply Cl; eauto.
    + exists n. split; [apply InR in In1; tauto|].
      assert (Mono : forall a b, path1 R a b -> path1 work a b).
      { induction 1; [apply t_step|eapply t_trans; eauto].
        destruct H as (Ha & Hb & He). apply InR in Ha, Hb. tauto. }
      apply Mono; auto.
  - intros (n & I & P). destruct cyc; auto. exfalso.
    specialize (Cf eq_refl).
    (* positions decrease along a path *)
    assert (Pos : forall a b, path1 work a b -> forall u v, order = u ++ a :: v -> In b u).
    { induction 1 as [a b (Ha & Hb & He)|a b c P1 IH1 P2 IH2]; intros u v Eo.
      - eapply Ord; eauto.
      - pose proof (IH1 u v Eo) as Ib. apply in_split in Ib as (u1 & u2 & ->).
        rewrite <- app_assoc in Eo. cbn in Eo. apply in_app_iff. left. eapply IH2; eauto. }
    assert (In n order) by (eapply Permutation_in; [apply Permutation_sym; eauto|auto]).
    apply in_split in H as (u & v & Eo). pose proof (Pos n n P u v Eo) as In'.
    rewrite Eo in No. apply NoDup_app_iff in No as (_ & _ & D). apply (D n In'). left; auto.
Qed.
End WAVES.

(** ** The dependency graph *)

(** What the files say. *)
Definition declares (f : file) (P : text) : Prop := exists i c, f_pre f = Pre P i c.
Definition imports_pkg (f : file) (Q : text) : Prop := exists P i c, f_pre f = Pre P i c /\ In Q i.

(** What a node needs directly: requirements of a package need its types and
    the requirements of imported packages; types need the types of imported
    packages.  Type files can only import packages that have a type file. *)
Inductive needs (rsl trlc : list file) : node -> node -> Prop :=
| needs_types P f : In f (rsl ++ trlc) -> declares f P -> needs rsl trlc (P, TRLC) (P, RSL)
| needs_rsl P Q f f' : In f rsl -> declares f P -> imports_pkg f Q -> In f' rsl -> declares f' Q ->
    needs rsl trlc (P, RSL) (Q, RSL)
| needs_trlc P Q f f' : In f trlc -> declares f P -> imports_pkg f Q -> In f' (rsl ++ trlc) -> declares f' Q ->
    needs rsl trlc (P, TRLC) (Q, TRLC).

Lemma add_imports_spec pkg imports : forall acc r, add_imports pkg imports acc = (r, true) ->
  forall Q, In Q r <-> In Q acc \/ In Q imports.
Proof.
  induction imports as [|i l IH]; intros acc r E Q; cbn in E.
  - injection E as <-. cbn. tauto.
  - destruct (text_eqb i pkg); [discriminate|]. destruct (name_mem i acc) eqn:M.
    + rewrite (IH _ _ E). apply name_mem_In in M. cbn. intuition (subst; auto).
    + rewrite (IH _ _ E), in_app_iff. cbn. tauto.
Qed.

(** A file whose preamble was fine. *)
Definition fine (p : parsed) : Prop :=
  exists P imps, f_pre (p_file p) = Pre P imps true /\ p_pkg p = Some P /\ p_ok p = true /\
                 forall Q, In Q (p_imports p) <-> In Q imps.

Lemma parse_preamble_fine pkgs f pkgs' p : parse_preamble pkgs f = (pkgs', p) -> p_ok p = true ->
  fine p /\ p_file p = f /\ forall P, In P pkgs' <-> In P pkgs \/ declares f P.
Proof.
  unfold parse_preamble, fine, declares. destruct (f_pre f) as [|P imps c] eqn:F.
  { intros E. injection E as <- <-. discriminate. }
  set (declare := match f_kind f with RSL => true | TRLC => _ end).
  destruct declare eqn:D.
  - destruct (similar_mem _ _); [intros E; injection E as <- <-; discriminate|].
    destruct (add_imports P imps []) as [r ok] eqn:A. intros E. injection E as <- <-. cbn.
    intros O. apply andb_true_iff in O as [-> ->]. split; [|split; auto].
    + exists P, imps. repeat split; auto; intros H; apply (add_imports_spec _ _ _ _ A) in H || apply (add_imports_spec _ _ _ _ A); auto.
      destruct H as [[]|H]; auto.
    + intros P'. rewrite in_app_iff. cbn. split.
      * intros [I|[<-|[]]]; eauto.
      * intros [I|(i & c' & I)]; auto. injection I as -> _ _. auto.
  - destruct (name_mem P pkgs) eqn:M; [|intros E; injection E as <- <-; discriminate].
    destruct (add_imports P imps []) as [r ok] eqn:A. intros E. injection E as <- <-. cbn.
    intros O. apply andb_true_iff in O as [-> ->]. split; [|split; auto].
    + exists P, imps. repeat split; auto; intros H; apply (add_imports_spec _ _ _ _ A) in H || apply (add_imports_spec _ _ _ _ A); auto.
      destruct H as [[]|H]; auto.
    + intros P'. split; auto. intros [I|(i & c' & I)]; auto. injection I as -> _ _. apply name_mem_In; auto.
Qed.

Record ginv (s : bstate) (E : node -> node -> Prop) : Prop := {
  gi_dom : forall P k, In (P, k) (gdom (b_graph s)) <-> In P (b_pkgs s);
  gi_edge : forall n m, In m (gget (b_graph s) n) <->
              (exists P, In P (b_pkgs s) /\ n = (P, TRLC) /\ m = (P, RSL)) \/ E n m;
  gi_E : forall n m, E n m -> In (fst n) (b_pkgs s)
}.

Lemma gget_app g g' n : gget (g ++ g') n = if mem n (gdom g) then gget g n else gget g' n.
Proof.
  induction g as [|[m l] g IH]; cbn; auto.
  destruct (node_eqb n m) eqn:E.
  - apply node_eqb_eq in E. subst. assert (node_eqb m m = true) as -> by (apply node_eqb_eq; auto). auto.
  - destruct (node_eqb m n) eqn:E'; auto. apply node_eqb_eq in E'. subst.
    assert (node_eqb n n = true) by (apply node_eqb_eq; auto). congruence.
Qed.

Lemma gget_outside g n : ~ In n (gdom g) -> gget g n = [].
Proof.
  induction g as [|[m l] g IH]; cbn; intros N; auto.
  destruct (node_eqb m n) eqn:E; auto. apply node_eqb_eq in E. exfalso. auto.
Qed.

Lemma gunion_dom g n l : gdom (gunion g n l) = gdom g.
Proof.
  unfold gdom. induction g as [|[m l'] g IH]; cbn; auto.
  destruct (node_eqb m n); cbn; congruence.
Qed.

Lemma gunion_get g n l a b : In n (gdom g) ->
  In b (gget (gunion g n l) a) <-> In b (gget g a) \/ (a = n /\ In b l).
Proof.
  induction g as [|[m l'] g IH]; cbn; intros D; [contradiction|].
  destruct (node_eqb m n) eqn:E; cbn.
  - apply node_eqb_eq in E. subst m. destruct (node_eqb n a) eqn:Ea.
    + apply node_eqb_eq in Ea. subst a. rewrite in_app_iff, filter_In, negb_true_iff, mem_false.
      destruct (in_dec node_dec b l'); intuition.
    + split; auto. intros [H|[-> _]]; auto. assert (node_eqb n n = true) by (apply node_eqb_eq; auto). congruence.
  - destruct (node_eqb m a) eqn:Ea.
    + apply node_eqb_eq in Ea. subst a. split; auto. intros [H|[-> _]]; auto.
      assert (node_eqb n n = true) by (apply node_eqb_eq; auto). congruence.
    + apply IH. destruct D as [D|D]; auto. subst. assert (node_eqb n n = true) by (apply node_eqb_eq; auto). congruence.
Qed.

Lemma preamble_step_inv s f E : ginv s E ->
  (forall p, In p (b_files (preamble_step s f)) -> p_ok p = true) ->
  exists p, fine p /\ p_file p = f /\ b_files (preamble_step s f) = b_files s ++ [p] /\
    ginv (preamble_step s f) E /\
    (forall P, In P (b_pkgs (preamble_step s f)) <-> In P (b_pkgs s) \/ declares f P).
Proof.
  intros G Ok. unfold preamble_step in *. destruct (parse_preamble (b_pkgs s) f) as [pkgs p] eqn:PP.
  cbn [b_files b_pkgs b_graph] in *.
  assert (O : p_ok p = true) by (apply Ok; apply in_elt).
  destruct (parse_preamble_fine _ _ _ _ PP O) as (Fi & Pf & Pk).
  exists p. split; auto. split; auto. split; auto. split; auto.
  destruct Fi as (P & imps & Fp & Pp & _ & _). rewrite Pp, O.
  assert (Dc : forall P', declares f P' <-> P' = P).
  { intros P'. rewrite <- Pf. unfold declares. rewrite Fp. split; [intros (i & c & H); congruence|intros ->; eauto]. }
  destruct (mem (P, RSL) (gdom (b_graph s))) eqn:M.
  - apply mem_In in M. apply (gi_dom _ _ G) in M.
    assert (Same : forall P', In P' pkgs <-> In P' (b_pkgs s)).
    { intros P'. rewrite Pk, Dc. intuition (subst; auto). }
    constructor; cbn [b_files b_pkgs b_graph].
    + intros P' k. rewrite Same. apply (gi_dom _ _ G).
    + intros n m. rewrite (gi_edge _ _ G). setoid_rewrite Same. tauto.
    + intros n m H. rewrite Same. eapply (gi_E _ _ G); eauto.
  - apply mem_false in M. rewrite (gi_dom _ _ G) in M.
    constructor; cbn [b_files b_pkgs b_graph].
    + intros P' k. unfold gdom. rewrite map_app, in_app_iff. fold (gdom (b_graph s)). rewrite (gi_dom _ _ G), Pk, Dc. cbn.
      split; [intros [I|[I|[I|[]]]]; auto; injection I as <- <-; auto|intros [I| ->]; auto]. destruct k; auto.
    + intros n m. rewrite gget_app. destruct (mem n (gdom (b_graph s))) eqn:Mn.
      * rewrite (gi_edge _ _ G). apply mem_In in Mn. destruct n as [Pn kn]. apply (gi_dom _ _ G) in Mn.
        split; (intros [(P' & I & E1 & E2)|H]; [left; exists P'|auto]).
        -- rewrite Pk; auto.
        -- injection E1 as <- ->. auto.
      * apply mem_false in Mn. destruct n as [Pn kn]. rewrite (gi_dom _ _ G) in Mn. cbn [gget]. split.
        -- unfold node_eqb. cbn. destruct (text_eqb P Pn) eqn:Et; cbn; [|contradiction].
           apply text_eqb_eq in Et. subst Pn. destruct kn; cbn; [contradiction|].
           intros [<-|[]]. left. exists P. rewrite Pk, Dc. auto.
        -- intros [(P' & I & E1 & E2)|H].
           ++ injection E1 as -> ->. subst m. apply Pk in I as [I|I]; [contradiction|]. apply Dc in I. subst P'.
              unfold node_eqb. cbn. rewrite text_eqb_refl. cbn. auto.
           ++ apply (gi_E _ _ G) in H. contradiction.
    + intros n m H. rewrite Pk. left. eapply (gi_E _ _ G); eauto.
Qed.

Lemma preamble_files_incl fs : forall s p, In p (b_files s) -> In p (b_files (fold_left preamble_step fs s)).
Proof.
  induction fs as [|f fs IH]; intros s p I; cbn; auto. apply IH. unfold preamble_step.
  destruct (parse_preamble (b_pkgs s) f). cbn. apply in_app_iff; auto.
Qed.

Lemma preamble_fold_inv fs : forall s E, ginv s E ->
  (forall p, In p (b_files (fold_left preamble_step fs s)) -> p_ok p = true) ->
  exists ps, Forall fine ps /\ map p_file ps = fs /\ b_files (fold_left preamble_step fs s) = b_files s ++ ps /\
    ginv (fold_left preamble_step fs s) E /\
    (forall P, In P (b_pkgs (fold_left preamble_step fs s)) <-> In P (b_pkgs s) \/ exists f, In f fs /\ declares f P).
Proof.
  induction fs as [|f fs IH]; intros s E G Ok; cbn [fold_left] in *.
  - exists []. rewrite app_nil_r. repeat split; auto; try apply G. intros [H|(f & [] & _)]; auto.
  - destruct (preamble_step_inv s f E G) as (p & Fp & Pf & Bf & G' & Pk).
    { intros p I. apply Ok. apply preamble_files_incl; auto. }
    destruct (IH _ _ G' Ok) as (ps & Fps & Mps & Bfs & G'' & Pk').
    exists (p :: ps). rewrite Bfs, Bf, <- app_assoc. cbn. repeat split; auto; try apply G''.
    + congruence.
    + intros H. apply Pk' in H as [H|(f' & I & D)]; [apply Pk in H as [H|H]|]; eauto.
    + intros H. apply Pk'. destruct H as [H|(f' & [<-|I] & D)]; [left|left|right; eauto]; apply Pk; auto.
Qed.

(** Edges added for the imports of [ps]. *)
Definition import_edge (pkgs : list text) (ps : list parsed) (n m : node) : Prop :=
  exists p P Q, In p ps /\ declares (p_file p) P /\ imports_pkg (p_file p) Q /\ In Q pkgs /\
                n = (P, f_kind (p_file p)) /\ m = (Q, f_kind (p_file p)).

Lemma import_fold_inv ps : forall s E, ginv s E -> Forall fine ps ->
  (forall p P, In p ps -> declares (p_file p) P -> In P (b_pkgs s)) ->
  ginv (fold_left import_step ps s) (fun n m => E n m \/ import_edge (b_pkgs s) ps n m) /\
  b_pkgs (fold_left import_step ps s) = b_pkgs s /\ b_files (fold_left import_step ps s) = b_files s.
Proof.
  induction ps as [|p ps IH]; intros s E G F D; cbn [fold_left].
  - split; [|auto]. constructor.
    + apply (gi_dom _ _ G).
    + intros n m. rewrite (gi_edge _ _ G). unfold import_edge. split; [tauto|].
      intros [H|[H|(p & P & Q & [] & _)]]; auto.
    + intros n m [H|(p & P & Q & [] & _)]. eapply (gi_E _ _ G); eauto.
  - inversion F; subst. destruct H1 as (P & imps & Fp & Pp & O & Im).
    assert (IP : In P (b_pkgs s)) by (apply (D p); [left; auto|unfold declares; eauto]).
    unfold import_step at 2 4 6. rewrite Pp, O. set (k := f_kind (p_file p)).
    set (s' := BState _ _ _ _).
    assert (G' : ginv s' (fun n m => E n m \/ import_edge (b_pkgs s) [p] n m)).
    { constructor; cbn [b_pkgs b_graph s'].
      - intros P' k'. rewrite gunion_dom. apply (gi_dom _ _ G).
      - intros n m. rewrite gunion_get by (apply (gi_dom _ _ G); auto). rewrite (gi_edge _ _ G).
        assert (n = (P, k) /\ In m (map (fun i => (i, k)) (resolve_imports (b_pkgs s) p)) <-> import_edge (b_pkgs s) [p] n m) as ->; [|tauto].
        rewrite in_map_iff. unfold resolve_imports, import_edge. setoid_rewrite filter_In. setoid_rewrite name_mem_In. split.
        + intros (-> & Q & <- & I1 & I2). exists p, P, Q. repeat split; auto; [left; auto|unfold declares; eauto|].
          exists P, imps, true. split; auto. apply Im; auto.
        + intros (p' & P' & Q & [<-|[]] & (i & c & Dp) & (P2 & i2 & c2 & Dp2 & I2) & IQ & -> & ->).
          rewrite Fp in Dp, Dp2. injection Dp as <- <- <-. injection Dp2 as <- <- <-. split; auto.
          exists Q. repeat split; auto. apply Im; auto.
      - intros n m [H|(p' & P' & Q & [<-|[]] & Dp & _ & _ & -> & _)]; [eapply (gi_E _ _ G); eauto|].
        cbn. apply (D p); auto. left; auto. }
    destruct (IH s' _ G' H2) as (G'' & Pk & Fl).
    { intros p' P' I Dp. apply (D p'); auto. right; auto. }
    rewrite Pk, Fl. split; [|auto]. cbn [b_pkgs s'] in *. 
    constructor.
    + intros; apply (gi_dom _ _ G'').
    + intros n m. rewrite (gi_edge _ _ G''). unfold import_edge. split.
      * intros [H|[[H|(p' & H)]|(p' & P' & Q & I & H)]]; auto.
        -- right. right. destruct H as (P' & Q & [<-|[]] & H). exists p, P', Q. split; auto. left; auto.
        -- right. right. exists p', P', Q. split; auto. right; auto.
      * intros [H|[H|(p' & P' & Q & [<-|I] & H)]]; auto.
        -- right. left. right. exists p, P', Q. split; auto. left; auto.
        -- right. right. exists p', P', Q. auto.
    + intros n m [H|(p' & P' & Q & [<-|I] & H)].
      * eapply (gi_E _ _ G''). left. left. eauto.
      * eapply (gi_E _ _ G''). left. right. exists p, P', Q. split; [left; auto|eauto].
      * eapply (gi_E _ _ G''). right. exists p', P', Q. split; eauto.
Qed.

Definition all_fine (rsl trlc : list file) : Prop :=
  forall p, In p (b_files (build rsl trlc)) -> p_ok p = true.

Lemma import_fold_files ps : forall s, b_files (fold_left import_step ps s) = b_files s.
Proof.
  induction ps as [|p ps IH]; intros s; cbn; auto. rewrite IH. unfold import_step.
  destruct (p_pkg p); auto. destruct (p_ok p); auto.
Qed.

Lemma of_kind_all k (ps : list parsed) : Forall (fun f => f_kind f = k) (map p_file ps) -> of_kind k ps = ps.
Proof.
  induction ps as [|p ps IH]; cbn; intros F; auto. inversion F; subst.
  assert (fkind_eqb (f_kind (p_file p)) (f_kind (p_file p)) = true) as -> by (apply fkind_eqb_eq; auto).
  f_equal. auto.
Qed.

Lemma of_kind_none k (ps : list parsed) : Forall (fun f => f_kind f <> k) (map p_file ps) -> of_kind k ps = [].
Proof.
  induction ps as [|p ps IH]; cbn; intros F; auto. inversion F; subst.
  destruct (fkind_eqb (f_kind (p_file p)) k) eqn:E; auto. apply fkind_eqb_eq in E. contradiction.
Qed.

Lemma of_kind_app k a b : of_kind k (a ++ b) = of_kind k a ++ of_kind k b.
Proof. apply filter_app. Qed.

Section BUILD.
Variables rsl trlc : list file.
Hypothesis kr : Forall (fun f => f_kind f = RSL) rsl.
Hypothesis kt : Forall (fun f => f_kind f = TRLC) trlc.
Hypothesis fine_all : all_fine rsl trlc.

Lemma build_spec :
  exists pr pt, Forall fine (pr ++ pt) /\ map p_file pr = rsl /\ map p_file pt = trlc /\
    b_files (build rsl trlc) = pr ++ pt /\
    of_kind RSL (pr ++ pt) = pr /\ of_kind TRLC (pr ++ pt) = pt /\
    (forall P k, In (P, k) (gdom (b_graph (build rsl trlc))) <-> exists f, In f (rsl ++ trlc) /\ declares f P) /\
    (forall n m, In m (gget (b_graph (build rsl trlc)) n) <-> needs rsl trlc n m).
Proof.
  unfold all_fine, build in *. unfold container_step in *. cbv zeta in *.
  set (s0 := BState [] [] [] 0) in *.
  assert (G0 : ginv s0 (fun _ _ => False)).
  { constructor; cbn; [tauto| |tauto]. intros n m. split; [contradiction|]. intros [(P & [] & _)|[]]. }
  set (s1 := fold_left preamble_step rsl s0) in *.
  assert (Keep : forall p, In p (b_files s1) -> p_ok p = true).
  { intros p I. apply fine_all. rewrite import_fold_files. apply preamble_files_incl.
    rewrite import_fold_files. auto. }
  destruct (preamble_fold_inv rsl s0 _ G0 Keep) as (pr & Fr & Mr & Br & G1 & P1). fold s1 in Br, G1, P1.
  cbn [b_files s0 app] in Br. rewrite Br in *.
  rewrite (of_kind_all RSL pr) by (rewrite Mr; auto).
  rewrite (of_kind_all RSL pr) in fine_all by (rewrite Mr; auto).
  assert (Dr : forall p P, In p pr -> declares (p_file p) P -> In P (b_pkgs s1)).
  { intros p P I D. apply P1. right. exists (p_file p). split; auto. rewrite <- Mr. apply in_map; auto. }
  destruct (import_fold_inv pr s1 _ G1 Fr Dr) as (G2 & P2 & F2).
  set (s2 := fold_left import_step pr s1) in *.
  set (s3 := fold_left preamble_step trlc s2) in *.
  assert (Keep3 : forall p, In p (b_files s3) -> p_ok p = true).
  { intros p I. apply fine_all. rewrite import_fold_files. auto. }
  destruct (preamble_fold_inv trlc s2 _ G2 Keep3) as (pt & Ft & Mt & Bt & G3 & P3). fold s3 in Bt, G3, P3.
  rewrite F2, Br in Bt. rewrite Bt in *.
  assert (Ok1 : of_kind RSL (pr ++ pt) = pr).
  { rewrite of_kind_app, (of_kind_all RSL pr), (of_kind_none RSL pt), app_nil_r; auto.
    - rewrite Mt. eapply Forall_impl; [|exact kt]. cbn. intros; congruence.
    - rewrite Mr; auto. }
  assert (Ok2 : of_kind TRLC (pr ++ pt) = pt).
  { rewrite of_kind_app, (of_kind_all TRLC pt), (of_kind_none TRLC pr); auto.
    - rewrite Mr. eapply Forall_impl; [|exact kr]. cbn. intros; congruence.
    - rewrite Mt; auto. }
  rewrite Ok2.
  assert (Dt : forall p P, In p pt -> declares (p_file p) P -> In P (b_pkgs s3)).
  { intros p P I D. apply P3. right. exists (p_file p). split; auto. rewrite <- Mt. apply in_map; auto. }
  destruct (import_fold_inv pt s3 _ G3 Ft Dt) as (G4 & P4 & F4).
  exists pr, pt.
  split; [apply Forall_app; auto|]. split; auto. split; auto. split; [congruence|]. split; auto. split; auto.
  assert (Pall : forall P, In P (b_pkgs s3) <-> exists f, In f (rsl ++ trlc) /\ declares f P).
  { intros P. rewrite P3, P2, P1. cbn [b_pkgs s0]. setoid_rewrite in_app_iff. split.
    - intros [[[]|(f & I & D)]|(f & I & D)]; eauto.
    - intros (f & [I|I] & D); [left; right|right]; eauto. }
  assert (Prsl : forall P, In P (b_pkgs s1) <-> exists f, In f rsl /\ declares f P).
  { intros P. rewrite P1. cbn. split; [intros [[]|H]; auto|auto]. }
  split.
  - intros P k. rewrite (gi_dom _ _ G4), P4. auto.
  - intros n m. rewrite (gi_edge _ _ G4), P4. unfold import_edge. setoid_rewrite Pall. setoid_rewrite Prsl. split.
    + intros [(P & (f & I & D) & -> & ->)|[[[]|(p & P & Q & I & D & Im & (f' & I' & D') & -> & ->)]|(p & P & Q & I & D & Im & (f' & I' & D') & -> & ->)]].
      * econstructor; eauto.
      * assert (Ip : In (p_file p) rsl) by (rewrite <- Mr; apply in_map; auto).
        rewrite Forall_forall in kr. rewrite (kr _ Ip). apply (needs_rsl rsl trlc P Q (p_file p) f'); auto.
      * assert (Ip : In (p_file p) trlc) by (rewrite <- Mt; apply in_map; auto).
        rewrite Forall_forall in kt. rewrite (kt _ Ip). apply (needs_trlc rsl trlc P Q (p_file p) f'); auto.
    + intros H. destruct H as [P f I D|P Q f f' I D Im I' D'|P Q f f' I D Im I' D'].
      * left. exists P. repeat split; eauto.
      * right. left. right. rewrite <- Mr in I. apply in_map_iff in I as (p & <- & I).
        assert (Ip : In (p_file p) rsl) by (rewrite <- Mr; apply in_map; auto).
        rewrite Forall_forall in kr. exists p, P, Q. rewrite (kr _ Ip). repeat split; eauto.
      * right. right. rewrite <- Mt in I. apply in_map_iff in I as (p & <- & I).
        assert (Ip : In (p_file p) trlc) by (rewrite <- Mt; apply in_map; auto).
        rewrite Forall_forall in kt. exists p, P, Q. rewrite (kt _ Ip). repeat split; eauto.
Qed.

(** ** Which files are parsed *)

Definition primary_node (n : node) : Prop :=
  exists f, In f (rsl ++ trlc) /\ f_primary f = true /\ declares f (fst n) /\ snd n = f_kind f.
Definition needed (n : node) : Prop :=
  exists w, primary_node w /\ clos_refl_trans node (needs rsl trlc) w n.

Let s := build rsl trlc.

Lemma fine_node p : fine p -> exists P, p_node p = Some (P, f_kind (p_file p)) /\ declares (p_file p) P /\
  forall P', declares (p_file p) P' -> P' = P.
Proof.
  intros (P & i & Fp & Pp & _). exists P. unfold p_node, declares. rewrite Pp, Fp. repeat split; eauto.
  intros P' (i' & c & E). congruence.
Qed.

Lemma nodes_of_In ps n : Forall fine ps ->
  In n (nodes_of ps) <-> exists p, In p ps /\ declares (p_file p) (fst n) /\ snd n = f_kind (p_file p).
Proof.
  intros F. unfold nodes_of. rewrite in_flat_map. rewrite Forall_forall in F. split.
  - intros (p & I & H). destruct (fine_node p (F p I)) as (P & E & D & _). rewrite E in H.
    destruct H as [<-|[]]. exists p. auto.
  - intros (p & I & D & K). exists p. split; auto. destruct (fine_node p (F p I)) as (P & E & _ & U).
    rewrite E, <- (U _ D), <- K. left. destruct n; auto.
Qed.

Lemma reach_needs a b : reach (b_graph s) a b <-> clos_refl_trans node (needs rsl trlc) a b.
Proof.
  destruct build_spec as (pr & pt & _ & _ & _ & _ & _ & _ & Dom & Edge). fold s in Dom, Edge.
  split; intros R; (induction R as [a b E|a|a b c R1 IH1 R2 IH2]; [apply rt_step|apply rt_refl|eapply rt_trans; eauto]).
  - apply Edge, E.
  - split; [apply Edge; auto|]. inversion E; subst; apply Dom; eexists; (split; [|eauto]); auto.
    apply in_app_iff; auto.
Qed.

Lemma closure_needed pick : exists required,
  closure pick (S (length (gdom (b_graph s)))) (b_graph s) (initial_work s) [] = Some required /\
  forall n, In n required <-> needed n.
Proof.
  destruct build_spec as (pr & pt & F & Mr & Mt & Bf & _ & _ & Dom & Edge). fold s in Bf, Dom, Edge.
  assert (Init : forall n, In n (initial_work s) <-> primary_node n).
  { intros n. unfold initial_work, primary_node. rewrite filter_In, mem_In, add_set_In, nodes_of_In, Bf.
    2:{ rewrite Forall_forall in *. intros p I. apply filter_In in I as [I _]. rewrite Bf in I. auto. }
    setoid_rewrite filter_In. split.
    - intros ([[]|(p & (I & Pp) & D & K)] & _). exists (p_file p). repeat split; auto.
      rewrite <- Mr, <- Mt, <- map_app. apply in_map; auto.
    - intros (f & I & Pf & D & K). split.
      + right. rewrite <- Mr, <- Mt, <- map_app in I. apply in_map_iff in I as (p & <- & I). eauto.
      + destruct n as [P k]. apply Dom. eauto. }
  destruct (closure_spec (b_graph s) pick (initial_work s) (S (length (gdom (b_graph s)))) (initial_work s) [])
    as (r & E & _ & _ & R).
  - rewrite app_nil_r. apply NoDup_filter. apply add_set_NoDup. constructor.
  - rewrite app_nil_r. intros n I. apply filter_In in I as [_ I]. apply mem_In; auto.
  - cbn. lia.
  - intros n I. rewrite app_nil_r; auto.
  - intros n I. rewrite app_nil_r in I. exists n. split; auto. apply rt_refl.
  - intros n m [].
  - exists r. split; auto. intros n. rewrite R. unfold needed. setoid_rewrite Init. setoid_rewrite reach_needs. tauto.
Qed.

Lemma selected_iff required p : (forall n, In n required <-> needed n) ->
  In p (b_files s) ->
  f_primary (p_file p) || secondary required p = true <->
  exists P, declares (p_file p) P /\ needed (P, f_kind (p_file p)).
Proof.
  intros R I. destruct build_spec as (pr & pt & F & Mr & Mt & Bf & _). fold s in Bf.
  assert (Fp : fine p) by (rewrite Forall_forall in F; apply F; rewrite <- Bf; auto).
  destruct (fine_node p Fp) as (P & E & D & U). destruct Fp as (P0 & i & _ & _ & O & _).
  assert (If : In (p_file p) (rsl ++ trlc)) by (rewrite <- Mr, <- Mt, <- map_app, <- Bf; apply in_map; auto).
  unfold secondary. rewrite E, O. destruct (f_primary (p_file p)) eqn:Pr; cbn.
  - split; auto. intros _. exists P. split; auto. exists (P, f_kind (p_file p)). split; [|apply rt_refl].
    exists (p_file p). repeat split; auto.
  - rewrite mem_In, R. split; [intros; exists P; auto|]. intros (P' & D' & N). rewrite (U _ D') in N. auto.
Qed.

(** Packages whose type file is parsed. *)
Lemma rsl_work_needed required : (forall n, In n required <-> needed n) ->
  NoDup (rsl_work s required) /\
  forall n, In n (rsl_work s required) <->
    snd n = RSL /\ (exists f, In f rsl /\ declares f (fst n)) /\ needed n.
Proof.
  intros R. destruct build_spec as (pr & pt & F & Mr & Mt & Bf & Or & _ & _). fold s in Bf.
  unfold rsl_work. rewrite Bf, Or. split; [apply add_set_NoDup; constructor|].
  intros n. rewrite add_set_In, nodes_of_In.
  2:{ rewrite Forall_forall in *. intros p I. apply filter_In in I as [I _]. apply F, in_app_iff; auto. }
  setoid_rewrite filter_In.
  assert (Kr : forall p, In p pr -> f_kind (p_file p) = RSL /\ In (p_file p) rsl).
  { intros p I. assert (In (p_file p) rsl) by (rewrite <- Mr; apply in_map; auto). split; auto.
    rewrite Forall_forall in kr. auto. }
  split.
  - intros [[]|(p & (I & Sel) & D & K)]. destruct (Kr p I) as [Kp Ip]. rewrite Kp in K. split; auto.
    apply (selected_iff required p R) in Sel as (P & DP & N); [|rewrite Bf; apply in_app_iff; auto].
    split; [eauto|]. destruct (fine_node p) as (P0 & _ & _ & U).
    { rewrite Forall_forall in F. apply F, in_app_iff; auto. }
    destruct n as [Pn k]. cbn in *. rewrite (U _ D), <- (U _ DP). subst k. rewrite <- Kp. auto.
  - intros (K & (f & I & D) & N). right. rewrite <- Mr in I. apply in_map_iff in I as (p & <- & I).
    destruct (Kr p I) as [Kp Ip]. exists p. rewrite Kp. repeat split; auto.
    apply (selected_iff required p R); [rewrite Bf; apply in_app_iff; auto|]. exists (fst n). split; auto.
    rewrite Kp, <- K. destruct n; auto.
Qed.

(** Requirement files that are parsed. *)
Lemma trlc_parsed_needed required : (forall n, In n required <-> needed n) ->
  forall f, In f (map p_file (trlc_parsed s required)) <->
    In f trlc /\ exists P, declares f P /\ needed (P, TRLC).
Proof.
  intros R f. destruct build_spec as (pr & pt & F & Mr & Mt & Bf & _ & Ot & _). fold s in Bf.
  unfold trlc_parsed. rewrite Bf, Ot. rewrite in_map_iff. setoid_rewrite filter_In.
  assert (Kt : forall p, In p pt -> f_kind (p_file p) = TRLC /\ In (p_file p) trlc /\ p_ok p = true).
  { intros p I. assert (In (p_file p) trlc) by (rewrite <- Mt; apply in_map; auto). split; [|split]; auto.
    - rewrite Forall_forall in kt. auto.
    - rewrite Forall_forall in F. destruct (F p) as (? & ? & _ & _ & O & _); auto. apply in_app_iff; auto. }
  split.
  - intros (p & <- & I & Sel). destruct (Kt p I) as (Kp & Ip & O). rewrite O in Sel. cbn in Sel.
    split; auto. apply (selected_iff required p R) in Sel; [|rewrite Bf; apply in_app_iff; auto].
    rewrite Kp in Sel. auto.
  - intros (I & H). rewrite <- Mt in I. apply in_map_iff in I as (p & <- & I). exists p. split; auto.
    destruct (Kt p I) as (Kp & Ip & O). split; auto. rewrite O. cbn.
    apply (selected_iff required p R); [rewrite Bf; apply in_app_iff; auto|]. rewrite Kp. auto.
Qed.

(** ** The order in which type files are parsed *)

Lemma order_spec required : (forall n, In n required <-> needed n) ->
  exists order cyc, waves (S (length (rsl_work s required))) (b_graph s) (rsl_work s required) [] = Some (order, cyc) /\
    NoDup order /\ incl order (rsl_work s required) /\
    (forall a n b m, order = a ++ n :: b -> needs rsl trlc n m -> In m a) /\
    (cyc = false -> Permutation order (rsl_work s required)) /\
    (cyc = true <-> exists P, needed (P, RSL) /\ clos_trans node (needs rsl trlc) (P, RSL) (P, RSL)).
Proof.
  intros R. destruct build_spec as (pr & pt & F & Mr & Mt & Bf & _ & _ & Dom & Edge). fold s in Bf, Dom, Edge.
  destruct (rsl_work_needed required R) as [N W].
  destruct (waves_spec (b_graph s) (S (length (rsl_work s required))) (rsl_work s required) [] N (Nat.lt_succ_diag_r _))
    as (order & cyc & E & No & Inc & Ord & Cf & _ & _).
  exists order, cyc. split; auto. split; auto. split; auto. split; [|split; auto].
  - intros a n b m Eo H. apply Edge in H. exact (Ord a n b Eo m H).
  - assert (Cl : forall n d, In n (rsl_work s required) -> In d (gget (b_graph s) n) -> In d (rsl_work s required)).
    { intros n d I D. apply Edge in D. apply W in I as (K & _ & (w & Pw & Rw)). apply W.
      destruct D; cbn in K; try discriminate. split; [reflexivity|]. split; [eauto|].
      exists w. split; auto. eapply rt_trans; eauto. apply rt_step. apply (needs_rsl rsl trlc P Q f f'); auto. }
    rewrite (waves_cycle (b_graph s) _ _ N (Nat.lt_succ_diag_r _) Cl order cyc E). split.
    + intros (n & I & P). apply W in I as (K & _ & Nd). destruct n as [Pn k]. cbn in K. subst k. exists Pn. split; auto.
      assert (Mono : forall a b, path1 (b_graph s) (rsl_work s required) a b -> clos_trans node (needs rsl trlc) a b).
      { induction 1; [apply t_step; apply Edge; tauto|eapply t_trans; eauto]. }
      auto.
    + intros (P & Nd & C). exists (P, RSL).
      assert (InW : In (P, RSL) (rsl_work s required)).
      { apply W. split; [reflexivity|]. split; auto. clear - C.
        apply clos_trans_t1n in C. inversion C as [y H|y z H]; inversion H; subst; eauto. }
      split; auto.
      assert (Mono : forall a b, clos_trans_1n node (needs rsl trlc) a b -> In a (rsl_work s required) ->
        path1 (b_graph s) (rsl_work s required) a b).
      { induction 1 as [a b H|a b c H _ IH]; intros Ia.
        - apply t_step. apply Edge in H. repeat split; eauto.
        - eapply t_trans; [apply t_step|apply IH].
          + apply Edge in H. repeat split; eauto.
          + apply Edge in H. eauto. }
      apply Mono; auto. apply clos_trans_t1n; auto.
Qed.
End BUILD.

(** ** The result of processing *)
Open Scope Z_scope.

(** A phase that reports errors exactly when it fails. *)
Definition honest (o : outcome) : Prop := 0 <= o_errors o /\ (o_ok o = true <-> o_errors o = 0).
Definition honest_oracle (o : oracle) : Prop :=
  (forall n, honest (ora_rsl o n)) /\ honest (ora_lint o) /\ (forall f, honest (ora_trlc o f)) /\
  honest (ora_refs o) /\ honest (ora_checks o).

Lemma honest_all l : Forall honest l -> 0 <= all_errors l /\ (all_ok l = true <-> all_errors l = 0).
Proof.
  induction 1 as [|x l [Hx1 Hx2] F IH]; cbn; [split; [lia|tauto]|].
  fold (all_errors l) (all_ok l). destruct IH as [I1 I2]. split; [lia|]. rewrite andb_true_iff, I2, Hx2. lia.
Qed.

Lemma preamble_fold_errors fs : forall s,
  b_errors s <= b_errors (fold_left preamble_step fs s) /\
  exists ps, b_files (fold_left preamble_step fs s) = b_files s ++ ps /\
  (b_errors s = b_errors (fold_left preamble_step fs s) <-> forall p, In p ps -> p_ok p = true).
Proof.
  induction fs as [|f fs IH]; intros s; cbn [fold_left].
  - split; [lia|]. exists []. rewrite app_nil_r. split; auto. split; intros; auto.
  - destruct (IH (preamble_step s f)) as (L & ps & B & E).
    assert (St : exists p, b_files (preamble_step s f) = b_files s ++ [p] /\
                           b_errors (preamble_step s f) = b_errors s + (if p_ok p then 0 else 1)).
    { unfold preamble_step. destruct (parse_preamble (b_pkgs s) f) as [pk p]. exists p. auto. }
    destruct St as (p & Sf & Se). rewrite Sf in B. rewrite Se in *.
    assert (Hp : 0 <= (if p_ok p then 0 else 1)) by (destruct (p_ok p); lia).
    split; [lia|]. exists (p :: ps). rewrite B, <- app_assoc. split; auto. split.
    + intros H p' [<-|I]; [destruct (p_ok p); auto; lia|]. apply E; auto. lia.
    + intros H. assert (Hps : forall p', In p' ps -> p_ok p' = true) by (intros; apply H; right; auto).
      apply E in Hps. rewrite (H p (or_introl eq_refl)) in *. lia.
Qed.

Lemma import_fold_errors ps : forall s,
  b_errors s <= b_errors (fold_left import_step ps s).
Proof.
  induction ps as [|p ps IH]; intros s; cbn [fold_left]; [lia|].
  specialize (IH (import_step s p)). enough (b_errors s <= b_errors (import_step s p)) by lia.
  unfold import_step. destruct (p_pkg p); [|lia]. destruct (p_ok p); cbn; lia.
Qed.

Lemma filter_length_le {A} (f : A -> bool) l : (length (filter f l) <= length l)%nat.
Proof. induction l as [|x l IH]; cbn; auto. destruct (f x); cbn; lia. Qed.

Lemma filter_length_eq {A} (f : A -> bool) l :
  (length l - length (filter f l) = 0)%nat <-> forall x, In x l -> f x = true.
Proof.
  induction l as [|x l IH]; cbn [filter length]; [split; [intros _ x []|auto]|].
  pose proof (filter_length_le f l). destruct (f x) eqn:E; cbn [length].
  - rewrite Nat.sub_succ, IH. split; [intros H' y [<-|I]; auto|intros H' y I; apply H'; right; auto].
  - split; [lia|]. intros H'. rewrite (H' x) in E by (left; auto). discriminate.
Qed.

Lemma import_fold_zero ps : forall s, Forall fine ps ->
  b_errors (fold_left import_step ps s) = b_errors s <->
  forall p Q, In p ps -> imports_pkg (p_file p) Q -> In Q (b_pkgs s).
Proof.
  induction ps as [|p ps IH]; intros s F; cbn [fold_left]; [split; [intros _ p Q []|auto]|].
  inversion F; subst. destruct H1 as (P & imps & Fp & Pp & O & Im).
  pose proof (import_fold_errors ps (import_step s p)) as L.
  assert (Bp : b_pkgs (import_step s p) = b_pkgs s) by (unfold import_step; rewrite Pp, O; auto).
  assert (Be : b_errors (import_step s p) = b_errors s + Z.of_nat (length (p_imports p) - length (resolve_imports (b_pkgs s) p))).
  { unfold import_step. rewrite Pp, O. auto. }
  pose proof (filter_length_eq (fun i => name_mem i (b_pkgs s)) (p_imports p)) as FE.
  fold (resolve_imports (b_pkgs s) p) in FE.
  assert (Hd : b_errors (fold_left import_step ps (import_step s p)) = b_errors s <->
    b_errors (fold_left import_step ps (import_step s p)) = b_errors (import_step s p) /\
    (length (p_imports p) - length (resolve_imports (b_pkgs s) p) = 0)%nat) by lia.
  rewrite Hd, (IH _ H2), FE, Bp. setoid_rewrite name_mem_In. split.
  - intros [A B] p' Q [<-|I] (P' & i & c & E & IQ).
    + rewrite Fp in E. injection E as <- <- <-. apply B, Im; auto.
    + eapply A; eauto. unfold imports_pkg; eauto.
  - intros H. split; [intros; eapply H; eauto; right; auto|]. intros Q IQ. apply (H p); [left; auto|].
    exists P, imps, true. split; auto. apply Im; auto.
Qed.

(** Every import names a package that is known when it is resolved. *)
Definition imports_resolve (rsl trlc : list file) : Prop :=
  (forall f Q, In f rsl -> imports_pkg f Q -> exists f', In f' rsl /\ declares f' Q) /\
  (forall f Q, In f trlc -> imports_pkg f Q -> exists f', In f' (rsl ++ trlc) /\ declares f' Q).

Lemma build_errors rsl trlc : Forall (fun f => f_kind f = RSL) rsl -> Forall (fun f => f_kind f = TRLC) trlc ->
  0 <= b_errors (build rsl trlc) /\
  (forallb p_ok (b_files (build rsl trlc)) = false -> 0 < b_errors (build rsl trlc)) /\
  (forallb p_ok (b_files (build rsl trlc)) = true ->
   b_errors (build rsl trlc) = 0 <-> imports_resolve rsl trlc).
Proof.
  intros kr kt.
  unfold build, container_step. set (s0 := BState [] [] [] 0). set (s1 := fold_left preamble_step rsl s0).
  set (s2 := fold_left import_step (of_kind RSL (b_files s1)) s1).
  set (s3 := fold_left preamble_step trlc s2).
  set (s4 := fold_left import_step (of_kind TRLC (b_files s3)) s3).
  destruct (preamble_fold_errors rsl s0) as (L1 & pr & B1 & E1). fold s1 in L1, B1, E1.
  pose proof (import_fold_errors (of_kind RSL (b_files s1)) s1) as L2. fold s2 in L2.
  destruct (preamble_fold_errors trlc s2) as (L3 & pt & B3 & E3). fold s3 in L3, B3, E3.
  pose proof (import_fold_errors (of_kind TRLC (b_files s3)) s3) as L4. fold s4 in L4.
  assert (F4 : b_files s4 = pr ++ pt).
  { unfold s4. rewrite import_fold_files, B3. unfold s2. rewrite import_fold_files, B1. auto. }
  change (b_errors s0) with 0 in *. split; [lia|]. rewrite F4. split.
  - intros FA. destruct (Z.eq_dec (b_errors s4) 0); [|lia]. exfalso.
    assert (A1 : forall p, In p pr -> p_ok p = true) by (apply E1; lia).
    assert (A3 : forall p, In p pt -> p_ok p = true) by (apply E3; lia).
    rewrite (proj2 (forallb_forall p_ok (pr ++ pt))) in FA; [discriminate|].
    intros p I. apply in_app_iff in I as [I|I]; auto.
  - intros FA. rewrite forallb_forall in FA.
    assert (A1 : forall p, In p pr -> p_ok p = true) by (intros; apply FA, in_app_iff; auto).
    assert (A3 : forall p, In p pt -> p_ok p = true) by (intros; apply FA, in_app_iff; auto).
    apply E1 in A1. apply E3 in A3.
    (* reuse the invariants of the graph *)
    assert (G0 : ginv s0 (fun _ _ => False)).
    { constructor; cbn; [tauto| |tauto]. intros n m. split; [contradiction|]. intros [(P & [] & _)|[]]. }
    destruct (preamble_fold_inv rsl s0 _ G0) as (pr' & Fr & Mr & Br & G1 & P1).
    { fold s1. rewrite B1. intros p I. apply FA, in_app_iff; auto. }
    fold s1 in Br, G1, P1. rewrite Br in B1. cbn in B1. subst pr'. cbn in Br.
    assert (OR : of_kind RSL (b_files s1) = pr) by (rewrite Br; apply of_kind_all; rewrite Mr; auto).
    assert (Dr : forall p P, In p pr -> declares (p_file p) P -> In P (b_pkgs s1)).
    { intros p P I D. apply P1. right. exists (p_file p). split; auto. rewrite <- Mr. apply in_map; auto. }
    assert (S2 : fold_left import_step pr s1 = s2) by (unfold s2; rewrite OR; auto).
    destruct (import_fold_inv pr s1 _ G1 Fr Dr) as (G2 & P2 & F2). rewrite S2 in G2, P2, F2.
    destruct (preamble_fold_inv trlc s2 _ G2) as (pt' & Ft & Mt & Bt & G3 & P3).
    { fold s3. rewrite B3, F2, Br. intros p I. apply FA; auto. }
    fold s3 in Bt, G3, P3. rewrite Bt in B3. apply app_inv_head in B3. subst pt'.
    assert (OT : of_kind TRLC (b_files s3) = pt).
    { rewrite Bt, of_kind_app, F2, Br, (of_kind_all TRLC pt), (of_kind_none TRLC pr); auto.
      - rewrite Mr. eapply Forall_impl; [|exact kr]. cbn. intros; congruence.
      - rewrite Mt; auto. }
    assert (S4 : fold_left import_step pt s3 = s4) by (unfold s4; rewrite OT; auto).
    pose proof (import_fold_zero pr s1 Fr) as Z1. rewrite S2 in Z1.
    pose proof (import_fold_zero pt s3 Ft) as Z3. rewrite S4 in Z3.
    assert (Split : b_errors s4 = 0 <->
      b_errors s2 = b_errors s1 /\ b_errors s4 = b_errors s3) by lia.
    rewrite Split, Z1, Z3. unfold imports_resolve.
    assert (Pall : forall P, In P (b_pkgs s3) <-> exists f, In f (rsl ++ trlc) /\ declares f P).
    { intros P. rewrite P3, P2, P1. cbn [b_pkgs s0]. setoid_rewrite in_app_iff. split.
      - intros [[[]|(f & I & D)]|(f & I & D)]; eauto.
      - intros (f & [I|I] & D); [left; right|right]; eauto. }
    assert (Prsl : forall P, In P (b_pkgs s1) <-> exists f, In f rsl /\ declares f P).
    { intros P. rewrite P1. cbn. split; [intros [[]|H]; auto|auto]. }
    setoid_rewrite Pall. setoid_rewrite Prsl.
    assert (Mr' : forall f, In f rsl <-> exists p, p_file p = f /\ In p pr).
    { intros f. rewrite <- Mr at 1. apply in_map_iff. }
    assert (Mt' : forall f, In f trlc <-> exists p, p_file p = f /\ In p pt).
    { intros f. rewrite <- Mt at 1. apply in_map_iff. }
    split; intros [A B]; split.
    + intros f Q I Im. apply Mr' in I as (p & <- & I). eauto.
    + intros f Q I Im. apply Mt' in I as (p & <- & I). eauto.
    + intros p Q I Im. apply (A (p_file p)); auto. apply Mr'. eauto.
    + intros p Q I Im. apply (B (p_file p)); auto. apply Mt'. eauto.
Qed.

Lemma closure_total pick s : NoDup (initial_work s) -> incl (initial_work s) (gdom (b_graph s)) ->
  exists r, closure pick (S (length (gdom (b_graph s)))) (b_graph s) (initial_work s) [] = Some r.
Proof.
  intros N I.
  destruct (closure_spec (b_graph s) pick (initial_work s) (S (length (gdom (b_graph s)))) (initial_work s) [])
    as (r & E & _); eauto.
  - rewrite app_nil_r; auto.
  - rewrite app_nil_r; auto.
  - cbn. lia.
  - intros n H. rewrite app_nil_r; auto.
  - intros n H. rewrite app_nil_r in H. exists n. split; auto. apply rt_refl.
  - intros n m [].
Qed.

Theorem process_spec pick lint o rsl trlc :
  Forall (fun f => f_kind f = RSL) rsl -> Forall (fun f => f_kind f = TRLC) trlc -> honest_oracle o ->
  exists b e, process pick lint o rsl trlc = Some (b, e) /\
    (b = false -> 0 < e) /\ (b = true -> (e = 0 <-> imports_resolve rsl trlc)).
Proof.
  intros kr kt (Hr & Hl & Ht & Hf & Hc). unfold process.
  destruct (build_errors rsl trlc kr kt) as (B0 & B1 & B2).
  set (s := build rsl trlc) in *.
  destruct (closure_total pick s) as (required & E).
  { apply NoDup_filter, add_set_NoDup. constructor. }
  { intros n I. apply filter_In in I as [_ I]. apply mem_In; auto. }
  rewrite E.
  destruct (waves_spec (b_graph s) (S (length (rsl_work s required))) (rsl_work s required) []) as (order & cyc & W & _).
  { apply add_set_NoDup. constructor. }
  { lia. }
  rewrite W.
  assert (R : Forall honest (map (ora_rsl o) order)).
  { apply Forall_forall. intros x I. apply in_map_iff in I as (n & <- & _). auto. }
  assert (T : Forall honest (map (fun p => ora_trlc o (p_file p)) (trlc_parsed s required))).
  { apply Forall_forall. intros x I. apply in_map_iff in I as (n & <- & _). auto. }
  destruct (honest_all _ R) as (R1 & R2). destruct (honest_all _ T) as (T1 & T2).
  destruct Hl as (Hl1 & Hl2). destruct Hf as (Hf1 & Hf2). destruct Hc as (Hc1 & Hc2).
  set (aok := all_ok (map (ora_rsl o) order)) in *. set (aerr := all_errors (map (ora_rsl o) order)) in *.
  set (tok := all_ok (map (fun p => ora_trlc o (p_file p)) (trlc_parsed s required))) in *.
  set (terr := all_errors (map (fun p => ora_trlc o (p_file p)) (trlc_parsed s required))) in *.
  set (lok := o_ok (ora_lint o)) in *. set (lerr := o_errors (ora_lint o)) in *.
  set (fok := o_ok (ora_refs o)) in *. set (ferr := o_errors (ora_refs o)) in *.
  set (cok := o_ok (ora_checks o)) in *. set (cerr := o_errors (ora_checks o)) in *.
  set (be := b_errors s) in *. set (bok := forallb p_ok (b_files s)) in *.
  clearbody aok aerr tok terr lok lerr fok ferr cok cerr be bok. clear - B0 B1 B2 R1 R2 T1 T2 Hl1 Hl2 Hf1 Hf2 Hc1 Hc2.
  destruct bok, aok, cyc, lint, lok, tok, fok, cok; cbn [andb negb];
    do 2 eexists; (split; [reflexivity|]); split; intros HH; try discriminate;
    try specialize (B1 eq_refl); try specialize (B2 eq_refl); try lia; rewrite <- B2; lia.
Qed.

(** One type file per package. *)
Lemma rsl_packages_distinct rsl trlc : Forall (fun f => f_kind f = RSL) rsl -> all_fine rsl trlc ->
  forall i j f f' P, nth_error rsl i = Some f -> nth_error rsl j = Some f' ->
    declares f P -> declares f' P -> i = j.
Proof.
  intros kr Fine.
  assert (Keep : forall p, In p (b_files (fold_left preamble_step rsl (BState [] [] [] 0))) -> p_ok p = true).
  { intros p I. apply Fine. unfold build, container_step. rewrite import_fold_files. apply preamble_files_incl.
    rewrite import_fold_files. auto. }
  clear Fine. revert Keep. generalize (BState [] [] [] 0) as s.
  assert (Step : forall s f, f_kind f = RSL -> (forall p, In p (b_files (preamble_step s f)) -> p_ok p = true) ->
    exists P, (forall P', declares f P' -> P' = P) /\ ~ In P (b_pkgs s) /\ b_pkgs (preamble_step s f) = b_pkgs s ++ [P]).
  { intros s f K Ok. unfold preamble_step, parse_preamble in *. destruct (f_pre f) as [|P i c] eqn:F.
    { cbn in Ok. specialize (Ok _ (in_elt _ _ _)). discriminate. }
    rewrite K in *. destruct (similar_mem P (builtin_names ++ b_pkgs s)) eqn:Sm.
    { cbn in Ok. specialize (Ok _ (in_elt _ _ _)). discriminate. }
    exists P. split; [intros P' (i' & c' & E); congruence|]. split.
    - intros I. unfold similar_mem in Sm. assert (T : existsb (fun m => text_eqb (simplified_name P) (simplified_name m)) (builtin_names ++ b_pkgs s) = true).
      { apply existsb_exists. exists P. split; [apply in_app_iff; auto|apply text_eqb_refl]. }
      congruence.
    - destruct (add_imports P i []). auto. }
  assert (Mono : forall fs s P, In P (b_pkgs s) -> In P (b_pkgs (fold_left preamble_step fs s))).
  { induction fs as [|f fs IH]; intros s P I; cbn; auto. apply IH. unfold preamble_step, parse_preamble.
    destruct (f_pre f) as [|P' i c]; auto. destruct (f_kind f); [|destruct (negb _)];
      repeat match goal with |- context [if ?b then _ else _] => destruct b end;
      try destruct (add_imports _ _ _); cbn; auto; apply in_app_iff; auto. }
  induction kr as [|f rsl K kr IH]; intros s Keep; [intros [|] j f f' P; discriminate|].
  cbn [fold_left] in Keep.
  destruct (Step s f K) as (P & U & NI & Eq).
  { intros p I. apply Keep. apply preamble_files_incl; auto. }
  assert (Tail : forall j f' P', nth_error rsl j = Some f' -> declares f' P' -> In P' (b_pkgs (preamble_step s f)) -> False).
  { clear U NI Eq IH K P. revert Keep. generalize (preamble_step s f) as s1. clear s f.
    induction kr as [|f rsl K kr IH]; intros s1 Keep j f' P' E D I; [destruct j; discriminate|].
    cbn [fold_left] in Keep.
    destruct (Step s1 f K) as (P & U & NI & Eq).
    { intros p I'. apply Keep. apply preamble_files_incl; auto. }
    destruct j as [|j]; cbn in E.
    - injection E as ->. apply U in D. subst. contradiction.
    - eapply (IH (preamble_step s1 f) Keep j f' P' E D). rewrite Eq. apply in_app_iff; auto. }
  intros [|i] [|j] g g' Q E1 E2 D1 D2; auto; cbn in E1, E2.
  - injection E1 as ->. exfalso. apply (Tail j g' Q E2 D2). rewrite Eq. apply U in D1. subst. apply in_elt.
  - injection E2 as ->. exfalso. apply (Tail i g Q E1 D1). rewrite Eq. apply U in D2. subst. apply in_elt.
  - f_equal. eapply (IH (preamble_step s f) Keep); eauto.
Qed.
