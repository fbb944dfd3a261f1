(** Property theorem C55, continued: which checks follow references. *)
From Verif Require Import Base Lexer Ast Eval Soundness Vcg Prop_Eval Prop_Parser Prop_Show.
Open Scope Z_scope.

(** Some part of the expression selects a field of a referenced object. *)
Definition follows_reference (e : expr) : Prop :=
  exists l c p un uv, sub (EField l c p un uv) e /\
    ((exists r, e_typ p = Some (TRec r)) \/ (exists i ms, e_typ p = Some (TUnion i ms))).

Lemma follows_in e f : follows_reference e -> (forall x, sub x e -> sub x f) -> follows_reference f.
Proof. intros (l & c & p & un & uv & S & T) F. exists l, c, p, un, uv. auto. Qed.
Lemma uses_follows e : uses_field_access e = true -> follows_reference e.
Proof.
  induction e as [l|l k|l a n qv opt|l a op e IHe|l a op e f IHe IHf|l c p un uv IHp|l x lo hi IHx IHlo IHhi|l es H|l acts els H IHe|l un v ls src body IHe] using expr_ind2; cbn [uses_field_access]; intros U; try discriminate.
  - eapply follows_in; [apply IHe; auto|]. intros; constructor; auto.
  - apply orb_true_iff in U as [U|U]; (eapply follows_in; [eauto|]); intros; [apply sub_left|apply sub_right]; auto.
  - assert (IH : uses_field_access p = true -> follows_reference (EField l c p un uv)).
    { intros X. eapply follows_in; [apply IHp; auto|]. intros; constructor; auto. }
    destruct (e_typ p) as [[]|] eqn:T; auto; exists l, c, p, un, uv; split; try apply sub_refl; eauto.
  - apply orb_true_iff in U as [U|U]; [apply orb_true_iff in U as [U|U]|]; (eapply follows_in; [eauto|]); intros; [apply sub_range1|apply sub_range2|apply sub_range3]; auto.
  - apply existsb_exists in U as (e & I & U). eapply follows_in; [eapply H; eauto|]. intros; eapply sub_oneof; eauto.
  - apply orb_true_iff in U as [U|U].
    + apply existsb_exists in U as ([c x] & I & U). destruct (H c x I) as [Hc Hx]. apply orb_true_iff in U as [U|U]; (eapply follows_in; [eauto|]); intros; eapply sub_cond; eauto.
    + eapply follows_in; [eauto|]. intros; apply sub_else; auto.
  - eapply follows_in; [apply IHe; auto|]. intros; constructor; auto.
Qed.
Lemma follows_uses x e : sub x e -> uses_field_access x = true -> uses_field_access e = true.
Proof.
  intros S U. revert S. induction e as [l|l k|l a n qv opt|l a op e IHe|l a op e f IHe IHf|l c p un uv IHp|l y lo hi IHx IHlo IHhi|l es H|l acts els H IHe|l un v ls src body IHe] using expr_ind2;
    intros S; inversion S; subst; auto; cbn [uses_field_access]; rewrite ?orb_true_iff; auto.
  - destruct (e_typ p) as [[]|]; auto.
  - apply existsb_exists. eauto.
  - left. apply existsb_exists. match goal with I : In (?c, ?e) acts |- _ => exists (c, e); split; auto; destruct (H c e I) as [Hc He] end. apply orb_true_iff. intuition.
Qed.

(** [uses_field_access], which decides in which order the checks are verified,
    is true for exactly these expressions. *)
Theorem C55_references e : uses_field_access e = true <-> follows_reference e.
Proof.
  split; [apply uses_follows|]. intros (l & c & p & un & uv & S & T). eapply follows_uses; [exact S|].
  cbn [uses_field_access]. destruct T as [(r & ->)|(i & ms & ->)]; auto.
Qed.
Print Assumptions C55_references.
Example C55_references_example :
  map (fun s => option_map uses_field_access (read_whole s))
    ["un.k == 7"; "(forall i in arr => i > 0 and me.n == i)"; "oneof(flag, tup.a == 1, me.me.tup.a > 2)"; "(forall i in arr => i > tup.a)"; "e1 == e2"]%string
  = [Some true; Some true; Some true; Some false; Some false].
Proof. vm_compute. reflexivity. Qed.
