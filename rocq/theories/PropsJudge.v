(** The judgement of a leaf, defects included: C70. *)
From Coq Require Import List Bool ZArith NArith String Lia.
From Verif Require Import Base Util Data Value Convert Ivt Scalar Validate Fun SpecBase SpecScalar SpecVerdict SpecCtx CtxProofs
  SpecReach SpecJudge JudgeProofs PropsMeaning Demo.
Import ListNotations.
Open Scope list_scope.

Section Props.
Variable X : ext.
Variable lk : lookup_context.
Hypothesis Hlk : forall name e, lk name = inr e -> is_fatal e = true.

(** ** C70.  A leaf accepts, reports a mismatch, or reports its first defect,
    exactly as specified, text of the message included. *)
Definition reported (j : judgement) (r : res unit) : Prop :=
  match j with
  | Good => r = Ok tt
  | Poor m => r = Err (EMismatch m)
  | Faulty e => r = Err e /\ is_fatal e = true
  end.
Lemma judges_reported c t v j : judges X lk c t v j -> reported j (val X lk v t c).
Proof.
  intros J. pose proof (judges_sound _ _ _ _ _ _ J) as M. destruct j as [| |e]; auto.
  apply faulty_fatal in J; auto. split; auto.
Qed.
Lemma reported_unique j j' r : reported j r -> reported j' r -> j = j'.
Proof.
  destruct j as [|m|e], j' as [|m'|e']; cbn; intros H H'; auto;
    repeat match goal with H : _ /\ _ |- _ => destruct H end; subst; try discriminate;
    match goal with H : Err _ = Err _ |- _ => injection H as H; subst end; try discriminate; auto.
Qed.
Theorem C70_exact : forall c t v j, leaf t = true -> (judges X lk c t v j <-> reported j (val X lk v t c)).
Proof.
  intros c t v j Lf. split; [apply judges_reported|]. intros R. destruct (judges_total X lk c t v Lf) as (j' & J).
  rewrite (reported_unique _ _ _ R (judges_reported _ _ _ _ J)). exact J.
Qed.
Theorem C70_rule : forall def v j, rd_parms def = [] -> leaf (rd_node def) = true ->
  (judges X lk initial_ctx (rd_node def) v j <-> reported j (run_validate X lk v def)).
Proof. intros def v j P Lf. rewrite run_validate_val by auto. apply C70_exact; auto. Qed.
(** There is one judgement for every value. *)
Theorem C70_one_judgement : forall c t v, leaf t = true ->
  exists j, judges X lk c t v j /\ forall j', judges X lk c t v j' -> j' = j.
Proof.
  intros c t v Lf. destruct (judges_total X lk c t v Lf) as (j & J). exists j. split; auto. intros j' J'. eapply judges_det; eauto.
Qed.
(** A defective leaf is reported as defective, with the same error, whatever the value. *)
Theorem C70_whatever_value : forall c t v v' e, leaf t = true -> reported (Faulty e) (val X lk v t c) ->
  reported (Faulty e) (val X lk v' t c).
Proof.
  intros c t v v' e Lf R. apply C70_exact in R; auto. apply C70_exact; auto.
  inversion R; subst; try (match goal with H : settles _ _ _ |- _ => inversion H end);
    first [eapply j_start_dangles; eassumption|eapply j_start_improper; eassumption|eapply j_end_dangles; eassumption
      |eapply j_end_improper; eassumption|eapply j_kinds; eassumption|eapply j_limit_improper; eassumption
      |eapply j_compared_dangles; eassumption|eapply j_compared_improper; eassumption|eapply j_size_improper; eassumption
      |eapply j_sized_dangles; eassumption|eapply j_sized_improper; eassumption|eapply j_argument_dangles; eassumption].
Qed.
End Props.

(** ** Non-vacuity: [tstr .size 1...4] and [no .. "x"], where the name [no] is not defined. *)
Example C70_example :
  let t := NControl (CtlSize tstr_t (NRange (lit_i 1) (lit_i 4) false)) in
  judges demo_ext no_rules initial_ctx t (vs "abc") Good /\
  judges demo_ext no_rules initial_ctx t (vs "abcd") (Poor (txt "tstr over .size limit")) /\
  reported (Poor (txt "tstr over .size limit")) (val demo_ext no_rules (vs "abcd") t initial_ctx) /\
  forall v, judges demo_ext no_rules initial_ctx (NRange (name_ "no") (lit_s "x") true) v (Faulty (EMissingRule (txt "no"))) /\
    reported (Faulty (EMissingRule (txt "no"))) (val demo_ext no_rules v (NRange (name_ "no") (lit_s "x") true) initial_ctx).
Proof.
  assert (Hl : forall name e, no_rules name = inr e -> is_fatal e = true) by (apply basic_fatal).
  intros t.
  assert (S : forall nd, (forall n a, nd <> NRule n a) -> stands no_rules initial_ctx nd nd) by (intros nd N; eexists; apply named_here; auto).
  assert (A : size_arg (NRange (lit_i 1) (lit_i 4) false) 1 4 false) by (constructor; unfold u64; lia).
  assert (P : judges demo_ext no_rules initial_ctx t (vs "abcd") (Poor (txt "tstr over .size limit"))).
  { eapply j_size with (p := PTstr); [apply S; discriminate|exact A|apply S; discriminate|cbn; auto|
      apply (said_over PTstr 1 4 false (vs "abcd") 1 4); [unfold between; lia|constructor; constructor|lia]|]. constructor. intros H.
    inversion H; subst. match goal with B : in_bytes _ _, K : between _ _ _ _ |- _ => inversion B; subst; unfold between in K; cbn in K end. lia. }
  split; [|split; [exact P|split; [apply C70_exact; auto|intros v; split]]].
  - eapply j_size with (p := PTstr); [apply S; discriminate|exact A|apply S; discriminate|cbn; auto|
      apply (said_over PTstr 1 4 false (vs "abc") 1 3); [unfold between; lia|constructor; constructor|lia]|]. constructor.
    eapply sized_string; [auto|constructor|constructor|]. unfold between. cbn. lia.
  - apply (j_start_dangles _ _ _ _ _ _ _ (EMissingRule (txt "no"))). exists (txt "no"), [], initial_ctx. split; [constructor|reflexivity].
  - apply C70_exact; auto. apply (j_start_dangles _ _ _ _ _ _ _ (EMissingRule (txt "no"))). exists (txt "no"), [], initial_ctx. split; [constructor|reflexivity].
Qed.

Print Assumptions C70_exact.
Print Assumptions C70_rule.
Print Assumptions C70_one_judgement.
Print Assumptions C70_whatever_value.
