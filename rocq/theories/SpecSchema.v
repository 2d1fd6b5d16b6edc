(** A reading of schemas on their syntax trees (RFC 8610), from scratch.

    [says s p x]: in the scope [s], the phrase [p] of the schema describes [x]: a
    value, a sequence of array elements, or a set of map entries.  Nothing here
    refers to the validation tree or to the functions of the validator: names,
    generic parameters, the standard prelude, ranges, control operators,
    occurrences, groups, cuts and encoded CBOR are all given their meaning here.

    Known departures of the reading from RFC 8610, all following the crate:
    tagged types of the prelude are read as the untagged type ([tdate] as [tstr],
    [biguint] as [bstr], ...); the precision of floats is not considered; a name
    used as a member of a group may stand for a type or a group, whatever
    operator defined it; repetitions are counted by 64-bit numbers; names nest at
    most [limit] deep. *)
From Coq Require Import List Bool ZArith NArith String Permutation.
From Verif Require Import Base Util Data Value Ivt Ast SpecBase SpecScalar SpecConvert SpecFlatten SpecJudge.
Import ListNotations.
Open Scope list_scope.

(** * Phrases, scopes, descriptions *)

Inductive phrase :=
| PType (ts : list type1)
| PType1 (t : type1)
| PType2 (t : type2)
| PGroup (g : list (list grpent))
| PMembers (es : list grpent)
| PEntry (e : grpent)
| PEntryVal (v : grpent_val).

(** The generic parameters that are bound, and the scope of their arguments. *)
Inductive scope := Scope (bound : list (text * type1)) (outer : option scope).
Definition top : scope := Scope [] None.
Definition bound_names (s : scope) : list text := let (b, _) := s in map fst b.
Fixpoint nesting (s : scope) : N := match s with Scope _ None => 0 | Scope _ (Some s') => nesting s' + 1 end%N.

Inductive what := One (v : value) | Elements (a : list value) | Entries (es : list (value * value)).

(** * Scalars *)

Definition plain (v : ast_value) : value :=
  match v with
  | AText t => VText t
  | AUint n => VInteger (Z.of_N n)
  | ANint z => VInteger z
  | AFloat u => VFloat u
  | ABytes b => VBytes b
  end.

(** The values of a standard name; [of_class]: the name of a class of values. *)
Definition of_class (t : type1) (p : prelude) : Prop :=
  exists n, t = T1Simple (T2Typename (txt n) []) /\ In (n, Some (NPrelude p)) prelude_table.
Inductive standard : string -> value -> Prop :=
| standard_class n p v : In (n, Some (NPrelude p)) prelude_table -> in_prelude p v -> standard n v
| standard_false : standard "false" (VBool false)
| standard_true : standard "true" (VBool true).
(** A type written as a literal, [true] and [false] included. *)
Inductive is_literal : type1 -> value -> Prop :=
| is_plain v : is_literal (T1Simple (T2Value v)) (plain v)
| is_false : is_literal (T1Simple (T2Typename (txt "false") [])) (VBool false)
| is_true : is_literal (T1Simple (T2Typename (txt "true") [])) (VBool true).

(** Values in a range between two literals. *)
Inductive in_range (incl : bool) : value -> value -> value -> Prop :=
| in_range_int a b v : in_int_range a b incl v -> in_range incl (VInteger a) (VInteger b) v
| in_range_float a b v : in_float_range a b incl v -> in_range incl (VFloat a) (VFloat b) v.

(** Sizes, from the argument of [.size]; they are 64-bit numbers. *)
Inductive size_ok : type1 -> Z -> Z -> bool -> Prop :=
| size_number v n : plain v = VInteger n -> u64 n -> size_ok (T1Simple (T2Value v)) n n true
| size_range v w a b incl : plain v = VInteger a -> plain w = VInteger b -> u64 a -> u64 b ->
    size_ok (T1Range (T2Value v) (T2Value w) incl) a b incl.

Definition cmp_names : list (string * cmp_op) := [("lt", OpLt); ("le", OpLe); ("gt", OpGt); ("ge", OpGe)]%string.

(** * Names *)

Definition body (r : rule) : phrase :=
  match r_val r with AssignType t => PType t | AssignGroup g => PEntry g end.

(** [bare p t]: the phrase [p] is the type [t] alone, perhaps in parentheses. *)
Inductive bare : phrase -> type1 -> Prop :=
| bare_here t : (forall ts, t <> T1Simple (T2Paren ts)) -> bare (PType1 t) t
| bare_paren ts t : bare (PType ts) t -> bare (PType1 (T1Simple (T2Paren ts))) t
| bare_type2 u t : bare (PType1 (T1Simple u)) t -> bare (PType2 u) t
| bare_type u t : bare (PType1 u) t -> bare (PType [u]) t
| bare_entry v t : bare (PEntryVal v) t -> bare (PEntry (GrpEnt None v)) t
| bare_member ts t : bare (PType ts) t -> bare (PEntryVal (GMember None ts)) t
| bare_groupname name : bare (PEntryVal (GGroupname name)) (T1Simple (T2Typename name [])).
Definition is_name (p : phrase) (name : text) (args : list type1) : Prop :=
  bare p (T1Simple (T2Typename name args)) /\ user_name name.

Section Reading.
Variable X : ext.
Variable rules : list rule.
Variable limit : N.

(** What a name stands for, and in which scope: the argument for a generic
    parameter, in the scope of the reference to the rule; or the last rule of that
    name, with its parameters bound to the arguments. *)
Inductive stands : scope -> text -> list type1 -> phrase -> scope -> Prop :=
| stands_parameter bound s name args t :
    last_entry name t bound -> stands (Scope bound (Some s)) name args (PType1 t) s
| stands_rule s name args r :
    ~ In name (bound_names s) -> last_rule name r rules ->
    List.length (r_parms r) = List.length args -> (nesting s < limit)%N ->
    stands s name args (body r) (Scope (combine (r_parms r) args) (Some s)).

(** Following names to a type that is not a name. *)
Inductive denotes : scope -> phrase -> type1 -> Prop :=
| denotes_here s p t : bare p t -> (forall name args, ~ is_name p name args) -> denotes s p t
| denotes_name s p name args p' s' t :
    is_name p name args -> stands s name args p' s' -> denotes s' p' t -> denotes s p t.

(** * Cuts: the keys that a member claims *)

Inductive is_key : member_key_val -> value -> Prop :=
| is_bareword t : is_key (MKBareword t) (VText t)
| is_value v : is_key (MKValue v) (plain v)
| is_type t u k : bare (PType1 t) u -> is_literal u k -> is_key (MKType1 t) k.

Inductive claims1 : scope -> phrase -> value -> Prop :=
| claims1_member s key ts k : is_key key k -> claims1 s (PEntryVal (GMember (Some (MKey key true)) ts)) k
| claims1_entry s v k : claims1 s (PEntryVal v) k -> claims1 s (PEntry (GrpEnt None v)) k
| claims1_name s p name args p' s' k :
    is_name p name args -> stands s name args p' s' -> claims1 s' p' k -> claims1 s p k.
Inductive claims : scope -> phrase -> value -> Prop :=
| claims_member s key ts k : is_key key k -> claims s (PEntryVal (GMember (Some (MKey key true)) ts)) k
| claims_entry s v k : claims s (PEntryVal v) k -> claims s (PEntry (GrpEnt None v)) k
| claims_name s p name args p' s' k :
    is_name p name args -> stands s name args p' s' -> claims s' p' k -> claims s p k
| claims_group s es e k : In e es -> claims s (PEntry e) k -> claims s (PEntryVal (GParen [es])) k
| claims_unwrap s p name args p' s' es e k :
    bare p (T1Simple (T2Unwrap name args)) -> stands s name args p' s' -> bare p' (T1Simple (T2Map [es])) ->
    In e es -> claims s' (PEntry e) k -> claims s p k
| claims_occur s o v k : (1 <= snd (bounds o))%N -> claims1 s (PEntryVal v) k ->
    claims s (PEntry (GrpEnt (Some o) v)) k.
(** No member is given an entry that an earlier one claims. *)
Fixpoint respects (s : scope) (es : list grpent) (parts : list (list (value * value))) : Prop :=
  match es, parts with
  | e :: es', _ :: ps' => (forall k, claims s (PEntry e) k -> ~ In k (map fst (List.concat ps'))) /\ respects s es' ps'
  | _, _ => True
  end.

(** * Descriptions *)

Definition allowed (o : occur_limit) (k : nat) : Prop := (fst (bounds o) <= N.of_nat k <= snd (bounds o))%N.
Definition key_type (k : member_key_val) : type1 :=
  match k with
  | MKType1 t => t
  | MKBareword s => T1Simple (T2Value (AText s))
  | MKValue v => T1Simple (T2Value v)
  end.

Inductive says : scope -> phrase -> what -> Prop :=
(** Types *)
| says_choice s ts t x : In t ts -> says s (PType1 t) x -> says s (PType ts) x
| says_simple s t x : says s (PType2 t) x -> says s (PType1 (T1Simple t)) x
| says_value s v : says s (PType2 (T2Value v)) (One (plain v))
| says_standard s n v : standard n v -> says s (PType2 (T2Typename (txt n) [])) (One v)
| says_name s name args p s' x :
    user_name name -> stands s name args p s' -> says s' p x -> says s (PType2 (T2Typename name args)) x
| says_parens s ts x : says s (PType ts) x -> says s (PType2 (T2Paren ts)) x
| says_array s g a : says s (PGroup g) (Elements a) -> says s (PType2 (T2Array g)) (One (VArray a))
| says_map s g es : says s (PGroup g) (Entries es) -> says s (PType2 (T2Map g)) (One (VMap es))
| says_unwrap s name args p s' g a :
    user_name name -> stands s name args p s' -> bare p (T1Simple (T2Array g)) -> says s' (PGroup g) (Elements a) ->
    says s (PType2 (T2Unwrap name args)) (Elements a)
| says_unwrap_map s name args p s' g es :
    user_name name -> stands s name args p s' -> bare p (T1Simple (T2Map g)) -> says s' (PGroup g) (Entries es) ->
    says s (PType2 (T2Unwrap name args)) (Entries es)
| says_range s t u incl t' u' a b v :
    denotes s (PType2 t) t' -> is_literal t' a -> denotes s (PType2 u) u' -> is_literal u' b -> in_range incl a b v ->
    says s (PType1 (T1Range t u incl)) (One v)
| says_compare s t l n op t' p l' w z v :
    In (n, op) cmp_names -> denotes s (PType2 l) l' -> is_literal l' w -> w = VInteger z ->
    denotes s (PType2 t) t' -> of_class t' p -> In p [PInt; PUint; PNint] ->
    in_prelude p v -> (exists x, v = VInteger x /\ cmp_holds op x z) ->
    says s (PType1 (T1Control t l (txt n))) (One v)
| says_size s t l t' p l' a b incl v :
    denotes s (PType2 l) l' -> size_ok l' a b incl -> denotes s (PType2 t) t' -> of_class t' p -> sized p a b incl v ->
    says s (PType1 (T1Control t l (txt "size"))) (One v)
| says_regexp s t l l' re x :
    bare (PType2 l) l' -> is_literal l' (VText re) -> regex_match X re x = true ->
    says s (PType1 (T1Control t l (txt "regexp"))) (One (VText x))
| says_cbor s t l b item v :
    cbor_decode X b = inl item -> cbor_means item v -> says s (PType2 l) (One v) ->
    says s (PType1 (T1Control t l (txt "cbor"))) (One (VBytes b))
| says_choose s name args x :
    (forall a, x <> Elements a) -> chosen s name args x -> says s (PType2 (T2Choiceify name args)) x
| says_choose_among s g v : among s g (One v) -> says s (PType2 (T2ChoiceifyInline g)) (One v)
| says_choose_entries s es e m :
    In e es -> says s (PEntry e) (Entries m) -> says s (PType2 (T2ChoiceifyInline [es])) (Entries m)
| says_choose_group s g m : List.length g <> 1 ->
    says s (PGroup g) (Entries m) -> says s (PType2 (T2ChoiceifyInline g)) (Entries m)
(** A value is a sequence of one element. *)
| says_element s t v : says s (PType1 t) (One v) -> says s (PType1 t) (Elements [v])
| says_element2 s t v : says s (PType2 t) (One v) -> says s (PType2 t) (Elements [v])
(** Groups *)
| says_group s g es x : In es g -> says s (PMembers es) x -> says s (PGroup g) x
| says_single s e v : says s (PEntry e) (One v) -> says s (PMembers [e]) (One v)
| says_sequence s es parts :
    Forall2 (fun e a => says s (PEntry e) (Elements a)) es parts -> says s (PMembers es) (Elements (List.concat parts))
| says_set s es parts m :
    Forall2 (fun e p => says s (PEntry e) (Entries p)) es parts -> respects s es parts ->
    Permutation m (List.concat parts) -> says s (PMembers es) (Entries m)
| says_entry s v x : says s (PEntryVal v) x -> says s (PEntry (GrpEnt None v)) x
| says_occur s o v parts :
    allowed o (List.length parts) -> Forall (fun a => says s (PEntryVal v) (Elements a)) parts ->
    says s (PEntry (GrpEnt (Some o) v)) (Elements (List.concat parts))
| says_occur_entries s o v parts m :
    allowed o (List.length parts) -> Forall (fun p => says s (PEntryVal v) (Entries p)) parts ->
    Permutation m (List.concat parts) -> says s (PEntry (GrpEnt (Some o) v)) (Entries m)
| says_member s ts x : says s (PType ts) x -> says s (PEntryVal (GMember None ts)) x
| says_labelled s key ts v : says s (PType ts) (One v) -> says s (PEntryVal (GMember (Some key) ts)) (Elements [v])
| says_pair s key cut ts k v : says s (PType1 (key_type key)) (One k) -> says s (PType ts) (One v) ->
    says s (PEntryVal (GMember (Some (MKey key cut)) ts)) (Entries [(k, v)])
| says_groupname s name x : says s (PType2 (T2Typename name [])) x -> says s (PEntryVal (GGroupname name)) x
| says_inner s g x : says s (PGroup g) x -> says s (PEntryVal (GParen g)) x
(** [&name]: one of the members of the group of that name; *)
with chosen : scope -> text -> list type1 -> what -> Prop :=
| chosen_group s name args g s' x :
    stands s name args (PEntry (GrpEnt None (GParen g))) s' -> among s' g x -> chosen s name args x
| chosen_alias s name args p s' name' args' x :
    stands s name args p s' -> is_name p name' args' -> chosen s' name' args' x -> chosen s name args x
(** [&( )]: one of the members. *)
with among : scope -> list (list grpent) -> what -> Prop :=
| among_members s es e x : In e es -> member_of s e x -> among s [es] x
| among_choices s g x : List.length g <> 1 -> says s (PGroup g) x -> among s g x
with member_of : scope -> grpent -> what -> Prop :=
| member_value s key ts x : says s (PType ts) x -> member_of s (GrpEnt None (GMember (Some key) ts)) x
| member_name s e name args x : is_name (PEntry e) name args -> chosen s name args x -> member_of s e x
| member_plain s e x :
    (forall key ts, e <> GrpEnt None (GMember (Some key) ts)) -> (forall name args, ~ is_name (PEntry e) name args) ->
    says s (PEntry e) x -> member_of s e x.
End Reading.

(** The value [v] is described by the rule [name] of the schema. *)
Definition described (X : ext) (rules : list rule) (limit : N) (name : text) (v : value) : Prop :=
  exists r, last_rule name r rules /\ r_parms r = [] /\ says X rules limit top (body r) (One v).
