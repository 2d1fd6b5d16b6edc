(** How names are resolved: rules, generic parameters and the recursion limit.

    A scope is the place a name is used in: at the start, or inside a rule that was
    entered from some other scope with arguments for its parameters. *)
From Coq Require Import List Bool ZArith NArith String.
From Verif Require Import Base Util Data Value Ivt Validate SpecBase SpecConvert.
Import ListNotations.
Open Scope list_scope.

Inductive scope :=
| Start
| Inside (caller : scope) (params : list text) (args : list node).

(** The number of rules entered on the way to a scope. *)
Fixpoint entered_rules (s : scope) : nat :=
  match s with Start => 0 | Inside s' _ _ => S (entered_rules s') end.
Definition param_of (s : scope) (name : text) : Prop :=
  match s with Start => False | Inside _ ps _ => In name ps end.

(** [resolves s name args]: what [name<args>], used in scope [s], stands for and in
    which scope that is read.  A parameter stands for its argument (the last one if
    the name is listed twice), read where the rule was used; further arguments are
    ignored.  Any other name stands for the rule of that name, read inside that
    rule; at most 50 rules can be entered. *)
Inductive resolves (lk : lookup_context) : scope -> text -> list node -> node * scope + verror -> Prop :=
| resolves_param s ps bound name args n : last_entry name n (combine ps bound) ->
    resolves lk (Inside s ps bound) name args (inl (n, s))
| resolves_rule s name args def : ~ param_of s name -> lk name = inl def ->
    List.length (rd_parms def) = List.length args -> entered_rules s < 50 ->
    resolves lk s name args (inl (rd_node def, Inside s (rd_parms def) args))
| resolves_missing s name args e : ~ param_of s name -> lk name = inr e -> resolves lk s name args (inr e)
| resolves_arity s name args def : ~ param_of s name -> lk name = inl def ->
    List.length (rd_parms def) <> List.length args -> resolves lk s name args (inr EGenericError)
| resolves_deep s name args def : ~ param_of s name -> lk name = inl def ->
    List.length (rd_parms def) = List.length args -> 50 <= entered_rules s ->
    resolves lk s name args (inr (EStructural (txt "hit recursion limit"))).

(** Scopes that occur: every rule was entered with as many arguments as it has
    parameters. *)
Fixpoint proper (s : scope) : Prop :=
  match s with Start => True | Inside s' ps args => List.length ps = List.length args /\ proper s' end.
