(** Properties C34-C36: which files are parsed, in which order, and what
    processing returns. *)
From Coq Require Import Permutation Relations.
From Verif Require Import Base SymTab SourceMan SourceManProofs.
Open Scope Z_scope.

(** Example input: requirements (primary) of A, which import B; types of A
    import C; B has types and requirements; D is not needed. *)
Definition ex_rsl : list file :=
  [File 1 RSL false (Pre (t "A") [t "C"] true); File 2 RSL false (Pre (t "B") [] true);
   File 3 RSL false (Pre (t "C") [] true); File 4 RSL false (Pre (t "D") [t "A"] true)].
Definition ex_trlc : list file :=
  [File 5 TRLC true (Pre (t "A") [t "B"; t "B"] true); File 6 TRLC false (Pre (t "B") [] true);
   File 7 TRLC false (Pre (t "D") [] true)].
Example ex_kinds : Forall (fun f => f_kind f = RSL) ex_rsl /\ Forall (fun f => f_kind f = TRLC) ex_trlc.
Proof. split; repeat constructor. Qed.
Example ex_all_fine : all_fine ex_rsl ex_trlc.
Proof. intros p I. cbn in I. repeat (destruct I as [<-|I]; [reflexivity|]). contradiction. Qed.

(** C34: for any order in which the work set is emptied, the closure
    algorithm ends and finds exactly the needed nodes. *)
Theorem C34_closure :
  forall rsl trlc pick,
    Forall (fun f => f_kind f = RSL) rsl -> Forall (fun f => f_kind f = TRLC) trlc -> all_fine rsl trlc ->
    exists required,
      closure pick (S (length (gdom (b_graph (build rsl trlc))))) (b_graph (build rsl trlc))
              (initial_work (build rsl trlc)) [] = Some required /\
      forall n, In n required <-> needed rsl trlc n.
Proof. intros rsl trlc pick kr kt F. exact (closure_needed rsl trlc kr kt F pick). Qed.
Print Assumptions C34_closure.

(** C34: exactly the needed type files are selected ... *)
Theorem C34_rsl_files :
  forall rsl trlc required,
    Forall (fun f => f_kind f = RSL) rsl -> Forall (fun f => f_kind f = TRLC) trlc -> all_fine rsl trlc ->
    (forall n, In n required <-> needed rsl trlc n) ->
    forall P k, In (P, k) (rsl_work (build rsl trlc) required) <->
      k = RSL /\ (exists f, In f rsl /\ declares f P) /\ needed rsl trlc (P, k).
Proof. intros rsl trlc required kr kt F R P k. exact (proj2 (rsl_work_needed rsl trlc kr kt F required R) (P, k)). Qed.
Print Assumptions C34_rsl_files.

(** ... and exactly the needed requirement files are parsed. *)
Theorem C34_trlc_files :
  forall rsl trlc required,
    Forall (fun f => f_kind f = RSL) rsl -> Forall (fun f => f_kind f = TRLC) trlc -> all_fine rsl trlc ->
    (forall n, In n required <-> needed rsl trlc n) ->
    forall f, In f (map p_file (trlc_parsed (build rsl trlc) required)) <->
      In f trlc /\ exists P, declares f P /\ needed rsl trlc (P, TRLC).
Proof. intros rsl trlc required kr kt F R. exact (trlc_parsed_needed rsl trlc kr kt F required R). Qed.
Print Assumptions C34_trlc_files.

Definition ex_required (pick : list node -> nat) : list node :=
  match closure pick 100 (b_graph (build ex_rsl ex_trlc)) (initial_work (build ex_rsl ex_trlc)) [] with
  | Some r => r | None => [] end.
Example C34_ex :
  map f_id (map p_file (trlc_parsed (build ex_rsl ex_trlc) (ex_required (fun _ => 0%nat)))) = [5; 6] /\
  rsl_work (build ex_rsl ex_trlc) (ex_required (fun _ => 1%nat)) = [(t "A", RSL); (t "B", RSL); (t "C", RSL)].
Proof. split; reflexivity. Qed.

(** C35: the order of parsing. *)
Theorem C35_order :
  forall rsl trlc required,
    Forall (fun f => f_kind f = RSL) rsl -> Forall (fun f => f_kind f = TRLC) trlc -> all_fine rsl trlc ->
    (forall n, In n required <-> needed rsl trlc n) ->
    exists order cyc,
      waves (S (length (rsl_work (build rsl trlc) required))) (b_graph (build rsl trlc))
            (rsl_work (build rsl trlc) required) [] = Some (order, cyc) /\
      NoDup order /\ incl order (rsl_work (build rsl trlc) required) /\
      (forall a n b m, order = a ++ n :: b -> needs rsl trlc n m -> In m a) /\
      (cyc = false -> Permutation order (rsl_work (build rsl trlc) required)) /\
      (cyc = true <-> exists P, needed rsl trlc (P, RSL) /\
                                clos_trans node (needs rsl trlc) (P, RSL) (P, RSL)).
Proof. intros rsl trlc required kr kt F R. exact (order_spec rsl trlc kr kt F required R). Qed.
Print Assumptions C35_order.

Theorem C35_one_file_per_package :
  forall rsl trlc, Forall (fun f => f_kind f = RSL) rsl -> all_fine rsl trlc ->
  forall i j f f' P, nth_error rsl i = Some f -> nth_error rsl j = Some f' ->
    declares f P -> declares f' P -> i = j.
Proof. exact rsl_packages_distinct. Qed.
Print Assumptions C35_one_file_per_package.

Example C35_ex :
  waves 10 (b_graph (build ex_rsl ex_trlc))
        (rsl_work (build ex_rsl ex_trlc) (ex_required (fun _ => 0%nat))) [] =
  Some ([(t "B", RSL); (t "C", RSL); (t "A", RSL)], false).
Proof. reflexivity. Qed.
Example C35_cycle_ex :
  let r := [File 1 RSL true (Pre (t "A") [t "B"] true); File 2 RSL true (Pre (t "B") [t "A"] true);
            File 3 RSL true (Pre (t "C") [] true)] in
  waves 10 (b_graph (build r [])) (rsl_work (build r []) [(t "A", RSL); (t "B", RSL); (t "C", RSL)]) [] =
  Some ([(t "C", RSL)], true).
Proof. reflexivity. Qed.

(** C35 without [all_fine] is false: if an included file has a syntax error
    in its import list, a cycle is reported although there is none. *)
Theorem C35_cycle_refuted :
  exists rsl order,
    Forall (fun f => f_kind f = RSL) rsl /\
    ~ (exists n, clos_trans node (needs rsl []) n n) /\
    closure (fun _ => 0%nat) 10 (b_graph (build rsl [])) (initial_work (build rsl [])) [] = Some [(t "A", RSL)] /\
    waves 10 (b_graph (build rsl [])) (rsl_work (build rsl []) [(t "A", RSL)]) [] = Some (order, true).
Proof.
  exists [File 1 RSL true (Pre (t "A") [t "B"] true); File 2 RSL false (Pre (t "B") [] false)], [].
  split; [repeat constructor|]. split; [|split; reflexivity].
  intros (n & C).
  assert (S : forall a b, clos_trans node (needs [File 1 RSL true (Pre (t "A") [t "B"] true); File 2 RSL false (Pre (t "B") [] false)] []) a b ->
     (a = (t "A", RSL) /\ b = (t "B", RSL)) \/ (snd a = TRLC /\ snd b = RSL)).
  { induction 1 as [a b H|a b c _ IH1 _ IH2].
    - destruct H as [P f I D|P Q f f' I D Im I' D'|P Q f f' I D Im I' D']; cbn; auto.
      + left. destruct I as [<-|[<-|[]]].
        * destruct D as (i & c & E). injection E as <- _ _. destruct Im as (P' & i' & c' & E & I2). injection E as <- <- _.
          destruct I2 as [<-|[]]. auto.
        * destruct Im as (P' & i' & c' & E & I2). injection E as <- <- _. contradiction.
      + contradiction.
    - destruct IH1 as [[-> ->]|[E1 E2]].
      + destruct IH2 as [[E _]|[E _]]; discriminate.
      + destruct IH2 as [[-> ->]|[E _]]; [right; auto|congruence]. }
  destruct (S n n C) as [[-> E]|[E1 E2]]; [discriminate|congruence].
Qed.
Print Assumptions C35_cycle_refuted.

(** C36: if the phases behind the oracle report errors exactly when they
    fail, then nothing is returned only if an error was reported; when a
    table is returned, there was no error iff all imports name packages. *)
Theorem C36_result_partial :
  forall pick lint o rsl trlc,
    Forall (fun f => f_kind f = RSL) rsl -> Forall (fun f => f_kind f = TRLC) trlc -> honest_oracle o ->
    exists b e, process pick lint o rsl trlc = Some (b, e) /\
      (b = false -> 0 < e) /\ (b = true -> (e = 0 <-> imports_resolve rsl trlc)).
Proof. exact process_spec. Qed.
Print Assumptions C36_result_partial.

(** C36 is false in general: an import of an unknown package is reported but
    a table is returned. *)
Definition good_oracle : oracle :=
  let g := Outcome true 0 in Oracle (fun _ => g) g (fun _ => g) g g.
Theorem C36_table_means_no_error_refuted :
  exists rsl o, honest_oracle o /\ process (fun _ => 0%nat) true o rsl [] = Some (true, 1).
Proof.
  exists [File 1 RSL true (Pre (t "P") [t "Unknown"] true)], good_oracle.
  split; [|reflexivity]. unfold honest_oracle, honest; cbn. repeat split; auto; lia.
Qed.
Print Assumptions C36_table_means_no_error_refuted.
Example C36_ex : process (fun _ => 0%nat) true good_oracle ex_rsl ex_trlc = Some (true, 0).
Proof. reflexivity. Qed.
