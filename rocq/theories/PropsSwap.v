(** Types with the same verdicts are interchangeable: C76. *)
From Coq Require Import List Bool ZArith NArith String Lia.
From Verif Require Import Base Util Data Value Convert Ivt Scalar Validate Total Fun SpecBase SpecCtx ValueOrder ConvertProofs
  CtxProofs SpecConvert SpecVerdict SpecJudge SpecPeg SpecSwap SwapProofs Demo.
Import ListNotations.
Open Scope list_scope.

Lemma initial_ok hole inspected : ctx_ok hole inspected initial_ctx.
Proof. constructor. cbn. discriminate. Qed.

(** ** C76.  If types without names get the same verdict on every value by themselves,
    exchanging them anywhere in a schema (in types, members, keys, values, choices,
    inside [.cbor], in several rules at once) changes no verdict. *)
Theorem C76_interchangeable : forall X lk1 lk2 (hole : node -> node -> Prop) inspected v def1 def2,
  (forall name e, lk1 name = inr e -> is_fatal e = true) -> (forall name e, lk2 name = inr e -> is_fatal e = true) ->
  (forall a b, hole a b -> equal_types X a b) ->
  swapped_rules hole inspected lk1 lk2 ->
  rd_parms def1 = [] -> rd_parms def2 = [] -> swap hole inspected InType (rd_node def1) (rd_node def2) ->
  wf_value v ->
  same_verdict (run_validate X lk1 v def1) (run_validate X lk2 v def2).
Proof.
  intros X lk1 lk2 hole inspected v def1 def2 H1 H2 HE HR P1 P2 S W. rewrite !run_validate_val by auto.
  eapply swap_val; eauto using initial_ok, wf_keys_sorted.
  intros a b Hab c w K. destruct (HE _ _ Hab) as (Ca & Cb & HV). specialize (HV w K). rewrite !run_validate_val in HV by auto. cbn in HV.
  rewrite (closed_val X lk1 (basic_context []) w a c initial_ctx), (closed_val X lk2 (basic_context []) w b c initial_ctx) by auto. exact HV.
Qed.
(** Types with names: they must agree, each with its own set of rules, in every
    context. *)
Theorem C76_interchangeable_names : forall X lk1 lk2 (hole : node -> node -> Prop) inspected v def1 def2,
  (forall name e, lk1 name = inr e -> is_fatal e = true) -> (forall name e, lk2 name = inr e -> is_fatal e = true) ->
  (forall a b, hole a b -> forall c w, keys_sorted w -> same_verdict (val X lk1 w a c) (val X lk2 w b c)) ->
  swapped_rules hole inspected lk1 lk2 ->
  rd_parms def1 = [] -> rd_parms def2 = [] -> swap hole inspected InType (rd_node def1) (rd_node def2) ->
  wf_value v ->
  same_verdict (run_validate X lk1 v def1) (run_validate X lk2 v def2).
Proof.
  intros X lk1 lk2 hole inspected v def1 def2 H1 H2 HE HR P1 P2 S W. rewrite !run_validate_val by auto.
  eapply swap_val; eauto using initial_ok, wf_keys_sorted.
Qed.

(** Some equal types. *)
Lemma closed_b t : (fix closed (k : nat) (t : node) := match k with O => false | S k =>
    match refers t with Some _ => false | None => forallb (closed k) (children t) end end) 20 t = true -> closed_type t.
Proof.
  intros H name M. revert H. generalize 20. induction M as [t name args R|t u name Hin M IH]; intros [|k] H; try discriminate.
  - rewrite R in H. discriminate.
  - destruct (refers t); [discriminate|]. rewrite forallb_forall in H. apply (IH k). apply H. auto.
Qed.
Theorem C76_int : forall X, equal_types X (NPrelude PInt) (NChoice [NPrelude PUint; NPrelude PNint]).
Proof.
  intros X. split; [apply closed_b; reflexivity|split; [apply closed_b; reflexivity|]]. intros v K. rewrite !run_validate_val by auto. cbn [rd_node].
  destruct v as [| |z| | | | |]; 
    try (erewrite !(val_run _ _ 5) by (cbn; reflexivity); reflexivity).
  rewrite (val_run X (basic_context []) 5 (VInteger z) (NPrelude PInt) initial_ctx (Ok tt)) by reflexivity.
  rewrite (val_run X (basic_context []) 5 (VInteger z) (NChoice [NPrelude PUint; NPrelude PNint]) initial_ctx (Ok tt)); [reflexivity|].
  cbn. destruct (Z.leb_spec 0 z); cbn; [reflexivity|]. destruct (Z.ltb_spec z 0); [reflexivity|lia].
Qed.
Theorem C76_bool : forall X, equal_types X (NPrelude PBool) (NChoice [NLiteral (LBool true); NLiteral (LBool false)]).
Proof.
  intros X. split; [apply closed_b; reflexivity|split; [apply closed_b; reflexivity|]]. intros v K. rewrite !run_validate_val by auto. cbn [rd_node].
  destruct v as [|[]| | | | | |]; erewrite !(val_run _ _ 5) by (cbn; reflexivity); reflexivity.
Qed.
Theorem C76_equivalence : forall X a b c,
  (closed_type a -> equal_types X a a) /\ (equal_types X a b -> equal_types X b a) /\
  (equal_types X a b -> equal_types X b c -> equal_types X a c).
Proof.
  intros X a b c. unfold equal_types. split; [|split].
  - intros Ha. split; [auto|split; [auto|]]. intros v K. pose proof (run_nopanic X (basic_context []) v (RuleDef [] a) K) as N.
    destruct (run_validate _ _ _ _); cbn; auto.
  - intros (Ha & Hb & H). split; [auto|split; [auto|]]. intros v K. specialize (H v K).
    destruct (run_validate X (basic_context []) v (RuleDef [] a)), (run_validate X (basic_context []) v (RuleDef [] b)); cbn in *; auto.
  - intros (Ha & Hb & H) (_ & Hc & H'). split; [auto|split; [auto|]]. intros v K. specialize (H v K). specialize (H' v K).
    destruct (run_validate X (basic_context []) v (RuleDef [] a)), (run_validate X (basic_context []) v (RuleDef [] b)),
      (run_validate X (basic_context []) v (RuleDef [] c)); cbn in *; try contradiction; congruence.
Qed.

(** The exchanged types must agree with the new rules.  Agreeing with the old ones
    is not enough: [x = int] can be turned into [x = x] that way. *)
Theorem C76_needs_new_rules : forall X,
  let x := name_ "x" in
  let lk1 := basic_context [(txt "x", RuleDef [] int_t)] in
  let lk2 := basic_context [(txt "x", RuleDef [] x)] in
  let hole a b := a = int_t /\ b = x in
  (forall a b v, hole a b -> keys_sorted v -> same_verdict (val X lk1 v a initial_ctx) (val X lk1 v b initial_ctx)) /\
  run_validate X lk1 (vi 1) (RuleDef [] x) = Ok tt /\
  (exists e, run_validate X lk2 (vi 1) (RuleDef [] x) = Err e).
Proof.
  intros X. cbn zeta. split; [|split].
  - intros a b v [-> ->] K. destruct v; erewrite !(val_run _ _ 5) by (cbn; reflexivity); reflexivity.
  - rewrite run_validate_val by reflexivity. run 10.
  - eexists. rewrite run_validate_val by reflexivity. run 60.
Qed.
(** The end of a range must be a literal: exchanging [5] with [5 / 5] in the rule it
    names changes the verdict, although the types are equal. *)
Theorem C76_needs_uninspected : forall X,
  let def := RuleDef [] (NRange (lit_i 1) (name_ "n") true) in
  equal_types X (lit_i 5) (NChoice [lit_i 5; lit_i 5]) /\
  run_validate X (basic_context [(txt "n", RuleDef [] (lit_i 5))]) (vi 3) def = Ok tt /\
  exists m, run_validate X (basic_context [(txt "n", RuleDef [] (NChoice [lit_i 5; lit_i 5]))]) (vi 3) def = Err (EStructural m).
Proof.
  intros X. cbn zeta. split; [|split].
  - split; [apply closed_b; reflexivity|split; [apply closed_b; reflexivity|]]. intros v K. rewrite !run_validate_val by auto. cbn [rd_node].
    destruct v as [| |z| | | | |]; try (erewrite !(val_run _ _ 5) by (cbn; reflexivity); reflexivity).
    destruct (Z.eqb_spec z 5) as [->|N].
    + erewrite !(val_run _ _ 5) by (cbn; reflexivity); reflexivity.
    + assert (E : Z.eqb 5 z = false) by (apply Z.eqb_neq; lia). assert (E' : Z.eqb z 5 = false) by (apply Z.eqb_neq; lia).
      erewrite !(val_run _ _ 5); [| |]; try (cbn; unfold validate_literal; cbn; rewrite ?E, ?E'; cbn; reflexivity). reflexivity.
  - rewrite run_validate_val by reflexivity. run 10.
  - eexists. rewrite run_validate_val by reflexivity. run 10.
Qed.

(** [int] replaced by [uint / nint] among array elements, in a map value, in a key
    and in another rule. *)
Definition whole_t := NChoice [NPrelude PUint; NPrelude PNint].
Definition demo_swap (int' : node) : rule_def := RuleDef [] (NMap [
  NOccur OOptional (NKeyValue (lit_s "n") (NRule (txt "opt") []) true);
  NOccur OZeroOrMore (NKeyValue int' (NArray [tstr_t; NOccur OZeroOrMore int']) false)]).
Definition demo_rules (int' : node) : lookup_context := basic_context [(txt "opt", RuleDef [] (NChoice [int'; NPrelude PNil]))].
Definition int_hole (a b : node) : Prop := a = int_t /\ b = whole_t.
Lemma whole_member : type_member whole_t.
Proof. apply tm_choice. intros t [<-|[<-|[]]]; apply tm_type; reflexivity. Qed.
Lemma swap_int p : swap int_hole (fun _ => False) p int_t whole_t.
Proof. apply sw_member; [split; auto|apply tm_type; reflexivity|exact whole_member]. Qed.
Lemma swap_leaf p t : leaf t = true -> children t = [] -> swap int_hole (fun _ => False) p t t.
Proof. intros L C. apply sw_kept, k_leaf; auto; rewrite C; contradiction. Qed.
Example C76_example :
  (forall a b, int_hole a b -> equal_types demo_ext a b) /\
  swapped_rules int_hole (fun _ => False) (demo_rules int_t) (demo_rules whole_t) /\
  swap int_hole (fun _ => False) InType (rd_node (demo_swap int_t)) (rd_node (demo_swap whole_t)) /\
  run_validate demo_ext (demo_rules whole_t) (VMap [(vs "n", VNull); (vi 4, VArray [vs "a"; vi 1; vi (-1)])]) (demo_swap whole_t) = Ok tt /\
  rejected (run_validate demo_ext (demo_rules whole_t) (VMap [(vi 4, VArray [vi 1])]) (demo_swap whole_t)).
Proof.
  split; [|split; [|split; [|split]]].
  - intros a b [-> ->]. apply C76_int.
  - intros name. unfold demo_rules, basic_context. cbn [rules_get]. match goal with |- context [if ?b then _ else _] => destruct b end; [|reflexivity]. cbn [rd_parms rd_node].
    split; [auto|]. split; [|contradiction]. apply sw_kept, k_choice. constructor; [apply swap_int|constructor; [apply swap_leaf; reflexivity|constructor]].
  - apply sw_kept, k_map. constructor; [|constructor; [|constructor]].
    + apply sw_kept, k_occur, sw_kept, k_kv; [apply swap_leaf; reflexivity|]. apply sw_kept, k_rule. contradiction.
    + apply sw_kept, k_occur, sw_kept, k_kv; [apply swap_int|]. apply sw_kept, k_array.
      constructor; [apply swap_leaf; reflexivity|constructor; [|constructor]]. apply sw_kept, k_occur, swap_int.
  - rewrite run_validate_val by reflexivity. run 20.
  - eexists. rewrite run_validate_val by reflexivity. run 20.
Qed.

Print Assumptions C76_interchangeable.
Print Assumptions C76_interchangeable_names.
Print Assumptions C76_int.
Print Assumptions C76_bool.
Print Assumptions C76_equivalence.
Print Assumptions C76_needs_new_rules.
Print Assumptions C76_needs_uninspected.
