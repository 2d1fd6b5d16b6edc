(** Which error an unsupported schema is reported with: C69. *)
From Coq Require Import List Bool ZArith NArith String Lia.
From Verif Require Import Base Util Data Ivt Convert Validate Ast Flatten Parser SpecReading SpecFlatten FlattenProofs Api ApiData SpecFault FaultProofs
  PropsFlatten PropsApi PropsRead Demo.
Import ListNotations.
Open Scope list_scope.

Section Props.
Variable X : ext.
Notation rx := (regex_compiles X).

(** ** C69.  Conversion fails exactly with the error of the first fault. *)
Theorem C69_error_exact : forall c e, flatten X c = Err e <-> fault_schema rx c e.
Proof. intros. apply schema_fault. Qed.
(** A schema is supported or has a fault, and then only one. *)
Theorem C69_supported_or_fault : forall c,
  (Forall (supported_rule rx) c /\ forall e, ~ fault_schema rx c e) \/
  (~ Forall (supported_rule rx) c /\ exists e, fault_schema rx c e /\ forall e', fault_schema rx c e' -> e' = e).
Proof.
  intros c. pose proof (C40_errors X c) as E. destruct (flatten X c) as [rs|e|] eqn:F; [left|right|destruct E].
  - split; [apply C38_success; eauto|]. intros e Q. apply schema_fault in Q. congruence.
  - split; [intros S; apply C38_success in S; destruct S; congruence|]. exists e. split; [apply schema_fault; auto|].
    intros e' Q. apply schema_fault in Q. congruence.
Qed.
(** What follows the first faulty rule does not matter. *)
Theorem C69_rest_irrelevant : forall pre r post post' e,
  Forall (supported_rule rx) pre -> ~ supported_rule rx r ->
  (fault_schema rx (pre ++ r :: post) e <-> fault_rule rx r e) /\
  (flatten X (pre ++ r :: post) = Err e <-> flatten X (pre ++ r :: post') = Err e).
Proof.
  intros pre r post post' e S N.
  assert (A : forall post, fault_schema rx (pre ++ r :: post) e <-> fault_rule rx r e).
  { intros p. split; [|intros Q; exists pre, r, p; auto]. intros (pre' & r' & post2 & E & S' & Q). clear post post'.
    revert pre' E S S'. induction pre as [|a pre IH]; intros [|a' pre'] E S S'; cbn in E; injection E as -> E; auto.
    - inv S'. contradiction.
    - inv S. apply (proj2 (rule_fault X a' e)) in Q || apply rule_fault in Q. apply supr in H1. destruct H1 as (p0 & H1). congruence.
    - inv S. inv S'. eapply IH; eauto. }
  split; [apply A|]. rewrite !schema_fault, !A. reflexivity.
Qed.
(** Through the entry points, whatever the rule's name and the data. *)
Theorem C69_text : forall s c e, u_cddl X s c -> fault_schema rx c e ->
  flatten_from_str X s = Err e /\
  (forall name data, validate_json_str X name s data = Err e) /\ (forall name data, validate_cbor_bytes X name s data = Err e).
Proof.
  intros s c e U F. apply C61_exact in U. apply schema_fault in F.
  assert (E : flatten_from_str X s = Err e) by (unfold flatten_from_str; rewrite U; exact F).
  unfold validate_json_str, validate_cbor_bytes. rewrite E. auto.
Qed.
Theorem C69_text_converse : forall s c e, u_cddl X s c -> flatten_from_str X s = Err e -> fault_schema rx c e.
Proof. intros s c e U F. apply C61_exact in U. unfold flatten_from_str in F. rewrite U in F. apply schema_fault. exact F. Qed.
End Props.

(** ** Non-vacuity: [a = {x: int .size tstr, y: time}  b = ~c<time>], and the parts
    in other orders. *)
Definition faulty : text := txt "a = {x: uint .size tstr, y: time} b = ~c<time>".
Definition tn (s : string) (args : list type1) : type2 := T2Typename (txt s) args.
Definition faulty_tree : cddl :=
  [Rule (txt "a") [] (AssignType [T1Simple (T2Map [[
     GrpEnt None (GMember (Some (MKey (MKBareword (txt "x")) true)) [T1Control (tn "uint" []) (tn "tstr" []) (txt "size")]);
     GrpEnt None (GMember (Some (MKey (MKBareword (txt "y")) true)) [T1Simple (tn "time" [])])]])]);
   Rule (txt "b") [] (AssignType [T1Simple (T2Unwrap (txt "c") [T1Simple (tn "time" [])])])].
Example C69_example : u_cddl demo_ext faulty faulty_tree /\ fault_schema (regex_compiles demo_ext) faulty_tree (unsupported ".size limit type") /\
  (forall name data, validate_json_str demo_ext name faulty data = Err (EUnsupported (txt ".size limit type"))) /\
  fault_schema (regex_compiles demo_ext) (skipn 1 faulty_tree) EGenericError /\
  (forall name data, validate_json_str demo_ext name (txt "a = {* time => ~c<time>}") data = Err (EUnsupported (txt "prelude type 'time'"))) /\
  ~ supported_rule (regex_compiles demo_ext) (nth 0 faulty_tree (Rule [] [] (AssignType []))).
Proof.
  assert (U : u_cddl demo_ext faulty faulty_tree) by (apply C61_exact; vm_compute; reflexivity).
  assert (F : fault_schema (regex_compiles demo_ext) faulty_tree (unsupported ".size limit type")) by (apply schema_fault; vm_compute; reflexivity).
  split; auto. split; auto. split; [apply (C69_text _ _ _ _ U F)|]. split; [apply schema_fault; vm_compute; reflexivity|].
  split; [|intros S; apply supr in S; destruct S as (p & S); vm_compute in S; discriminate].
  assert (exists c, u_cddl demo_ext (txt "a = {* time => ~c<time>}") c /\ flatten demo_ext c = Err (EUnsupported (txt "prelude type 'time'"))) as (c & U' & F').
  { eexists. split; [apply C61_exact; vm_compute; reflexivity|]. vm_compute. reflexivity. }
  apply (C69_text _ _ c _ U'). apply schema_fault. exact F'.
Qed.
(** By hand: the fault of the first rule. *)
Example C69_by_hand : forall rx, fault_schema rx faulty_tree (unsupported ".size limit type").
Proof.
  intros rx. exists [], (nth 0 faulty_tree (Rule [] [] (AssignType []))), (skipn 1 faulty_tree). split; [reflexivity|]. split; [constructor|].
  constructor. apply fault_option. eexists [], _, []. split; [reflexivity|]. split; [constructor|]. apply fault_simple, fault_map, fault_member.
  eexists [], _, []. split; [reflexivity|]. split; [constructor|]. eexists [], _, _. split; [reflexivity|]. split; [constructor|].
  apply fault_ent, fault_value; [exact I|]. apply fault_option. eexists [], _, []. split; [reflexivity|]. split; [constructor|].
  apply (fault_misfit rx _ _ "size").
  - apply (s2_prelude rx "uint" (NPrelude PUint)). cbn. auto 30.
  - apply (s2_prelude rx "tstr" (NPrelude PTstr)). cbn. auto 30.
  - apply misfit_size; [intros L; inversion L as [| |? ? U]; subst; apply U; cbn; auto 30|intros (? & ? & ? & [=])].
Qed.

Print Assumptions C69_error_exact.
Print Assumptions C69_supported_or_fault.
Print Assumptions C69_rest_irrelevant.
Print Assumptions C69_text.
Print Assumptions C69_text_converse.
