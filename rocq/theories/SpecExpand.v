(** Specification of generic rules by substitution: an application of a generic
    rule is its body with the parameters replaced by the arguments. *)
From Coq Require Import List Bool ZArith NArith String.
From Verif Require Import Base Util Data Value Ivt Validate SpecCtx.
Import ListNotations.

(** The argument bound to a name (the last one, if a parameter is repeated). *)
Fixpoint argument (parms : list text) (args : list node) (name : text) : option node :=
  match parms, args with
  | p :: ps, a :: l =>
      match argument ps l name with
      | Some b => Some b
      | None => if text_eqb p name then Some a else None
      end
  | _, _ => None
  end.

(** Replace the references to names bound by [s] in a tree. *)
Section Subst.
Variable s : text -> option node.
Fixpoint subst (n : node) : node :=
  match n with
  | NLiteral _ | NPrelude _ => n
  | NRule name args =>
      match s name with
      | Some a => a
      | None => NRule name (map subst args)
      end
  | NChoice l => NChoice (map subst l)
  | NMap l => NMap (map subst l)
  | NArray l => NArray (map subst l)
  | NGroup l => NGroup (map subst l)
  | NKeyValue k v cut => NKeyValue (subst k) (subst v) cut
  | NOccur o x => NOccur o (subst x)
  | NUnwrap name args => NUnwrap name (map subst args)
  | NRange a b incl => NRange (subst a) (subst b) incl
  | NControl c =>
      NControl (match c with
                | CtlSize a b => CtlSize (subst a) (subst b)
                | CtlLt a b => CtlLt (subst a) (subst b)
                | CtlLe a b => CtlLe (subst a) (subst b)
                | CtlGt a b => CtlGt (subst a) (subst b)
                | CtlGe a b => CtlGe (subst a) (subst b)
                | CtlRegexp re => CtlRegexp re
                | CtlCbor a => CtlCbor (subst a)
                end)
  | NChoiceify name args => NChoiceify name (map subst args)
  | NChoiceifyInline l => NChoiceifyInline (map subst l)
  end.
End Subst.

(** The application of a rule to arguments. *)
Definition instance (def : rule_def) (args : list node) : node :=
  subst (argument (rd_parms def) args) (rd_node def).

(** Lookup by macro expansion: there are no contexts, no parameters in scope
    and no recursion limit. *)
Definition lookup_expand (lk : lookup_context) (_ : unit) (name : text) (args : list node)
  : res (node * unit) :=
  match lk name with
  | inr e => Err e
  | inl def =>
      if Nat.eqb (List.length (rd_parms def)) (List.length args)
      then Ok (instance def args, tt)
      else Err EGenericError
  end.

(** * The class of schemas for which the two agree *)

(** A tree and its subtrees. *)
Inductive part : node -> node -> Prop :=
| part_self n : part n n
| part_child n m m' : In m (children n) -> part m m' -> part n m'.

Definition param_ref (parms : list text) (n : node) : Prop :=
  exists name args, n = NRule name args /\ In name parms.

(** Parameters are not used as the operand of [~] or [&], nor as a member of an
    inline choice [&( )]. *)
Definition params_are_types (parms : list text) (body : node) : Prop :=
  forall m, part body m ->
    match m with
    | NUnwrap name _ | NChoiceify name _ => ~ In name parms
    | NChoiceifyInline l => forall i, In i l -> ~ param_ref parms i
    | _ => True
    end.

(** Names whose definition is inspected by [~] or [&]. *)
Definition names_target (m : node) (name : text) : Prop :=
  exists args, m = NUnwrap name args \/ m = NChoiceify name args \/
    exists l, m = NChoiceifyInline l /\ In (NRule name args) l.
Inductive target (lk : lookup_context) (start : node) : text -> Prop :=
| target_start m name : part start m -> names_target m name -> target lk start name
| target_rule r def m name :
    lk r = inl def -> part (rd_node def) m -> names_target m name -> target lk start name
| target_alias r def name args :
    target lk start r -> lk r = inl def -> rd_node def = NRule name args -> target lk start name
| target_member r def l name args :
    target lk start r -> lk r = inl def -> rd_node def = NGroup l -> In (NRule name args) l ->
    target lk start name.

(** The definition of a target is not just a parameter, nor a group with a
    parameter as a member. *)
Definition proper_target (def : rule_def) : Prop :=
  ~ param_ref (rd_parms def) (rd_node def) /\
  forall l i, rd_node def = NGroup l -> In i l -> ~ param_ref (rd_parms def) i.

(** What is written somewhere in the schema, with the parameters in scope there. *)
Inductive written (lk : lookup_context) (start : node) : list text -> node -> Prop :=
| written_start m : part start m -> written lk start [] m
| written_rule r def m : lk r = inl def -> part (rd_node def) m -> written lk start (rd_parms def) m.

(** [m] applies a rule with parameters [ps] and passes [x] for [name]. *)
Definition passes (lk : lookup_context) (ps : list text) (name : text) (m x : node) : Prop :=
  exists r args def, (m = NRule r args \/ m = NUnwrap r args \/ m = NChoiceify r args) /\
    lk r = inl def /\ rd_parms def = ps /\ argument ps args name = Some x.

(** What may stand for the argument of [.size]: what is written there; if that is
    a name, its definition; and if it is a parameter, what is passed for it. *)
Inductive measured (lk : lookup_context) (start : node) : list text -> node -> Prop :=
| measured_size ps a b : written lk start ps (NControl (CtlSize a b)) -> measured lk start ps b
| measured_rule ps name args def : measured lk start ps (NRule name args) -> ~ In name ps ->
    lk name = inl def -> measured lk start (rd_parms def) (rd_node def)
| measured_param ps name args ps' m x : measured lk start ps (NRule name args) -> In name ps ->
    written lk start ps' m -> passes lk ps name m x -> measured lk start ps' x.

(** The ends of a range that limits a size are not parameters. *)
Definition plain_sizes (lk : lookup_context) (start : node) : Prop :=
  forall ps a b i, measured lk start ps (NRange a b i) -> ~ param_ref ps a /\ ~ param_ref ps b.

Definition expandable (lk : lookup_context) (start : node) : Prop :=
  (forall name def, lk name = inl def -> params_are_types (rd_parms def) (rd_node def)) /\
  (forall name def, target lk start name -> lk name = inl def -> proper_target def) /\
  plain_sizes lk start.
