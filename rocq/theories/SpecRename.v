(** Specification: two schemas that differ only in the names of rules and of
    generic parameters.  Refers only to the types of Ast.v and Ivt.v and to
    the vocabulary of SpecCtx.v and SpecFlatten.v. *)
From Coq Require Import List Bool ZArith NArith String.
From Verif Require Import Base Util Ivt Ast Validate SpecCtx SpecFlatten.
Import ListNotations.
Open Scope list_scope.

(** * Trees *)
Section Ren.
Variable f : text -> text.
Fixpoint ren_node (nd : node) : node :=
  match nd with
  | NLiteral l => NLiteral l
  | NPrelude p => NPrelude p
  | NRule n l => NRule (f n) (map ren_node l)
  | NChoice l => NChoice (map ren_node l)
  | NMap l => NMap (map ren_node l)
  | NArray l => NArray (map ren_node l)
  | NGroup l => NGroup (map ren_node l)
  | NKeyValue k v c => NKeyValue (ren_node k) (ren_node v) c
  | NOccur o n => NOccur o (ren_node n)
  | NUnwrap n l => NUnwrap (f n) (map ren_node l)
  | NRange a b i => NRange (ren_node a) (ren_node b) i
  | NControl c =>
      NControl match c with
               | CtlSize a b => CtlSize (ren_node a) (ren_node b)
               | CtlLt a b => CtlLt (ren_node a) (ren_node b)
               | CtlLe a b => CtlLe (ren_node a) (ren_node b)
               | CtlGt a b => CtlGt (ren_node a) (ren_node b)
               | CtlGe a b => CtlGe (ren_node a) (ren_node b)
               | CtlRegexp re => CtlRegexp re
               | CtlCbor a => CtlCbor (ren_node a)
               end
  | NChoiceify n l => NChoiceify (f n) (map ren_node l)
  | NChoiceifyInline l => NChoiceifyInline (map ren_node l)
  end.

(** Barewords in key position are text, not names. *)
Fixpoint ren2 (t : type2) : type2 :=
  match t with
  | T2Value v => T2Value v
  | T2Typename n a => T2Typename (f n) (map ren1 a)
  | T2Paren t => T2Paren (map ren1 t)
  | T2Map g => T2Map (map (map ren_ent) g)
  | T2Array g => T2Array (map (map ren_ent) g)
  | T2Unwrap n a => T2Unwrap (f n) (map ren1 a)
  | T2ChoiceifyInline g => T2ChoiceifyInline (map (map ren_ent) g)
  | T2Choiceify n a => T2Choiceify (f n) (map ren1 a)
  end
with ren1 (t : type1) : type1 :=
  match t with
  | T1Simple t => T1Simple (ren2 t)
  | T1Range s e i => T1Range (ren2 s) (ren2 e) i
  | T1Control t a op => T1Control (ren2 t) (ren2 a) op
  end
with ren_ent (g : grpent) : grpent :=
  match g with GrpEnt o v => GrpEnt o (ren_gval v) end
with ren_gval (v : grpent_val) : grpent_val :=
  match v with
  | GMember k t => GMember (option_map ren_key k) (map ren1 t)
  | GGroupname n => GGroupname (f n)
  | GParen g => GParen (map (map ren_ent) g)
  end
with ren_key (k : member_key) : member_key :=
  match k with MKey v c => MKey (ren_kval v) c end
with ren_kval (k : member_key_val) : member_key_val :=
  match k with
  | MKType1 t => MKType1 (ren1 t)
  | MKBareword s => MKBareword s
  | MKValue v => MKValue v
  end.
Definition ren_val (v : rule_val) : rule_val :=
  match v with
  | AssignType t => AssignType (map ren1 t)
  | AssignGroup g => AssignGroup (ren_ent g)
  end.
End Ren.

(** The names that occur in a syntax tree. *)
Fixpoint names2 (t : type2) : list text :=
  match t with
  | T2Value v => []
  | T2Typename n a | T2Unwrap n a | T2Choiceify n a => n :: flat_map names1 a
  | T2Paren t => flat_map names1 t
  | T2Map g | T2Array g | T2ChoiceifyInline g => flat_map (flat_map names_ent) g
  end
with names1 (t : type1) : list text :=
  match t with
  | T1Simple t => names2 t
  | T1Range s e _ => names2 s ++ names2 e
  | T1Control t a _ => names2 t ++ names2 a
  end
with names_ent (g : grpent) : list text :=
  match g with GrpEnt _ v => names_gval v end
with names_gval (v : grpent_val) : list text :=
  match v with
  | GMember (Some (MKey (MKType1 k) _)) t => names1 k ++ flat_map names1 t
  | GMember _ t => flat_map names1 t
  | GGroupname n => [n]
  | GParen g => flat_map (flat_map names_ent) g
  end.
Definition names_val (v : rule_val) : list text :=
  match v with
  | AssignType t => flat_map names1 t
  | AssignGroup g => names_ent g
  end.

(** * Schemas *)
Section WithR.
(** The new names of rules. *)
Variable R : text -> text.

(** [f] renames the names of a rule with parameters [ps]: a name [x] that is not
    a parameter is a rule, and must not be captured by a renamed parameter. *)
Definition inj_on (f : text -> text) (ps : list text) : Prop :=
  forall x y, In x ps -> In y ps -> f x = f y -> x = y.
Definition sees (f : text -> text) (ps : list text) (x : text) : Prop :=
  In x ps \/ f x = R x /\ ~ In (f x) (map f ps).
(** Names of the standard prelude stay, and no other name becomes one. *)
Definition keeps (f : text -> text) (x : text) : Prop :=
  user_name x /\ user_name (f x) \/ ~ user_name x /\ f x = x.

Definition renamed_rule (r r' : rule) : Prop :=
  exists f, inj_on f (r_parms r) /\
    (forall x, In x (names_val (r_val r)) -> keeps f x /\ (user_name x -> sees f (r_parms r) x)) /\
    r' = Rule (R (r_name r)) (map f (r_parms r)) (ren_val f (r_val r)).
Definition renamed_cddl : cddl -> cddl -> Prop := Forall2 renamed_rule.

Definition renamed_def (d d' : rule_def) : Prop :=
  exists f, inj_on f (rd_parms d) /\ (forall x, mentions (rd_node d) x -> sees f (rd_parms d) x) /\
    d' = RuleDef (map f (rd_parms d)) (ren_node f (rd_node d)).

(** The name of a missing rule is the only name that an error contains. *)
Definition ren_err (e : verror) : verror :=
  match e with EMissingRule n => EMissingRule (R n) | e => e end.
Definition ren_res {A} (r : res A) : res A :=
  match r with Err e => Err (ren_err e) | r => r end.

Definition renamed_context (lk lk' : lookup_context) : Prop :=
  forall x, match lk x with
            | inl d => exists d', lk' (R x) = inl d' /\ renamed_def d d'
            | inr e => lk' (R x) = inr (ren_err e)
            end.
End WithR.
