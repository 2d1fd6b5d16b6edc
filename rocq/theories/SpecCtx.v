(** Specification vocabulary for names: which names a schema mentions, which
    rules are reachable, and when the recursion limit is not reached. *)
From Coq Require Import List Bool ZArith NArith String.
From Verif Require Import Base Util Data Value Convert Ivt Scalar Validate.
Import ListNotations.

(** Direct subnodes. *)
Definition control_children (c : control node) : list node :=
  match c with
  | CtlSize a b | CtlLt a b | CtlLe a b | CtlGt a b | CtlGe a b => [a; b]
  | CtlRegexp _ => []
  | CtlCbor a => [a]
  end.
Definition children (nd : node) : list node :=
  match nd with
  | NLiteral _ | NPrelude _ => []
  | NRule _ l | NChoice l | NMap l | NArray l | NGroup l | NUnwrap _ l
  | NChoiceify _ l | NChoiceifyInline l => l
  | NKeyValue a b _ | NRange a b _ => [a; b]
  | NOccur _ a => [a]
  | NControl c => control_children c
  end.

(** The name looked up when the validator reaches a node. *)
Definition refers (nd : node) : option (text * list node) :=
  match nd with
  | NRule n a | NUnwrap n a | NChoiceify n a => Some (n, a)
  | _ => None
  end.

(** A name occurs somewhere in a node (as a reference of any kind, also inside
    generic arguments). *)
Inductive mentions : node -> text -> Prop :=
| mentions_here nd name args : refers nd = Some (name, args) -> mentions nd name
| mentions_child nd nd' name : In nd' (children nd) -> mentions nd' name -> mentions nd name.

(** The global names a rule depends on directly: those mentioned in its body
    that are not its generic parameters. *)
Definition depends (def : rule_def) (name : text) : Prop :=
  mentions (rd_node def) name /\ ~ In name (rd_parms def).

(** Rules reachable from a starting definition. *)
Inductive reachable (lk : lookup_context) (start : rule_def) : text -> Prop :=
| reach_start name : depends start name -> reachable lk start name
| reach_step name def name' :
    reachable lk start name -> lk name = inl def -> depends def name' ->
    reachable lk start name'.

(** The lookup of the program, except that reaching the recursion limit is a
    panic, which nothing intercepts. *)
Definition lookup_strict (lk : lookup_context) (c : ctx) (name : text) (args : list node)
  : res (node * ctx) :=
  match gm_get name (ctx_map c) with
  | Some nd =>
      match ctx_past c with
      | Some past => Ok (nd, past)
      | None => Panic
      end
  | None =>
      match lk name with
      | inr e => Err e
      | inl def =>
          if negb (Nat.eqb (List.length (rd_parms def)) (List.length args)) then Err EGenericError
          else if N.leb max_depth (ctx_depth c) then Panic
          else Ok (rd_node def,
                   Ctx (gm_collect (combine (rd_parms def) args)) (Some c) (ctx_depth c + 1)%N)
      end
  end.

(** "The recursion limit is not reached" when validating a value against a type,
    and when matching an array or map member. *)
Definition within_limit (X : ext) (lk : lookup_context) (v : value) (nd : node) (c : ctx) : Prop :=
  exists n r, validate X (lookup_strict lk) n v nd c = Some r /\ r <> Panic.
Definition within_limit_array (X : ext) (lk : lookup_context) (nd : node) (w : warray) (c : ctx) : Prop :=
  exists n r w', validate_array_member X (lookup_strict lk) n nd w c = Some (r, w') /\ r <> Panic.
Definition within_limit_map (X : ext) (lk : lookup_context) (nd : node) (w : wmap) (c : ctx) : Prop :=
  exists n r w', validate_map_member X (lookup_strict lk) n nd w c = Some (r, w') /\ r <> Panic.
