(** Model of the recursive part of src/validate.rs, and of src/context.rs.

    Conventions.  Functions returning [ValidateResult] are modelled by
    [option (res unit)]; functions that also mutate a working array/map return
    [option (res unit * state)] (the state is returned on errors too).  [None]
    means that the fuel argument was too small; it is never a result of the
    program.  Each Rust function body is a definition parameterised by the
    functions it calls; [validate] and the four functions mutually recursive
    with it tie the knot. *)
From Coq Require Import List Bool ZArith NArith String.
From Verif Require Import Base Util Data Value Convert Ivt Scalar.
Import ListNotations.
Open Scope list_scope.

(** * Contexts *)

(** src/context.rs 25-28: [LookupContext]; any implementation is a function from
    names to a definition or an error. *)
Definition lookup_context := text -> rule_def + verror.

(** src/ivt.rs 32 [RulesByName] with [BTreeMap::get], and src/context.rs 31-49:
    [BasicContext].  The map is an association list. *)
Definition rules := list (text * rule_def).
Fixpoint rules_get (rs : rules) (name : text) : option rule_def :=
  match rs with
  | [] => None
  | (n, d) :: rs' => if text_eqb n name then Some d else rules_get rs' name
  end.
Definition basic_context (rs : rules) : lookup_context :=
  fun name =>
    match rules_get rs name with
    | Some d => inl d
    | None => inr (EMissingRule name)
    end.

(** [HashMap] of generic arguments (src/validate.rs 18); only [collect] and [get]
    are used. *)
Definition gmap := list (text * node).
Fixpoint gm_get (k : text) (m : gmap) : option node :=
  match m with
  | [] => None
  | (k', v) :: m' => if text_eqb k' k then Some v else gm_get k m'
  end.
(** [HashMap::insert] (an equal key is overwritten) and [collect]. *)
Fixpoint gm_insert (k : text) (v : node) (m : gmap) : gmap :=
  match m with
  | [] => [(k, v)]
  | (k', v') :: m' => if text_eqb k' k then (k', v) :: m' else (k', v') :: gm_insert k v m'
  end.
Definition gm_collect (l : list (text * node)) : gmap :=
  fold_left (fun m p => gm_insert (fst p) (snd p) m) l [].

(** src/validate.rs 17-30: [GenericMap] and [Context] (without the [lookup]
    field, which is constant during a validation). *)
Inductive ctx := Ctx (map : gmap) (past : option ctx) (depth : N).

Definition ctx_map (c : ctx) := let (m, _, _) := c in m.
Definition ctx_past (c : ctx) := let (_, p, _) := c in p.
Definition ctx_depth (c : ctx) := let (_, _, d) := c in d.

(** src/validate.rs 48: [MAX_DEPTH]. *)
Definition max_depth : N := 50.

(** src/validate.rs 50-56: [inc_depth]. *)
Definition inc_depth (c : ctx) : res N :=
  if N.leb max_depth (ctx_depth c) then Err (EStructural (txt "hit recursion limit"))
  else Ok (ctx_depth c + 1)%N.

(** src/validate.rs 99-105: [blank]. *)
Definition blank (c : ctx) : res ctx :=
  bind_res (inc_depth c) (fun d => Ok (Ctx [] None d)).

(** src/validate.rs 108-137: [derive]. *)
Definition derive (c : ctx) (def : rule_def) (args : list node) : res ctx :=
  if negb (Nat.eqb (List.length (rd_parms def)) (List.length args)) then Err EGenericError
  else
    bind_res (inc_depth c)
      (fun d => Ok (Ctx (gm_collect (combine (rd_parms def) args)) (Some c) d)).

(** src/validate.rs 152-156: the initial context of [do_validate]. *)
Definition initial_ctx : ctx := Ctx [] None 0.

(** src/validate.rs 71-96: [lookup_rule]. *)
Definition lookup_rule (lk : lookup_context) (c : ctx) (name : text) (args : list node) : res (node * ctx) :=
  match gm_get name (ctx_map c) with
  | Some nd =>
      match ctx_past c with
      | Some past => Ok (nd, past)
      | None => bind_res (blank c) (fun c' => Ok (nd, c'))
      end
  | None =>
      match lk name with
      | inr e => Err e
      | inl def => bind_res (derive c def args) (fun c' => Ok (rd_node def, c'))
      end
  end.

(** The functions below reach the context only through [lookup_rule], so they are
    defined over an arbitrary type of contexts with a lookup function; the
    program is the instance [lookup_rule lk] at type [ctx].  Other instances
    serve as specifications (for example, macro expansion of generics). *)
Section Validator.
Variable X : ext.
Context {C : Type}.
Variable lookup : C -> text -> list node -> res (node * C).

(** * Working copies *)

(** src/validate.rs 239-244: [WorkingArray]; the head of [wa_snaps] is the back
    of the [snaps] deque (the most recent snapshot). *)
Record warray := WA { wa_array : list value; wa_snaps : list (list value) }.

(** src/validate.rs 248-254. *)
Definition wa_new (a : list value) : warray := WA a [].
(** src/validate.rs 265-268. *)
Definition wa_snapshot (w : warray) : warray := WA (wa_array w) ([] :: wa_snaps w).
(** src/validate.rs 271-280; [None] is the panic of [unwrap]. *)
Definition wa_rewind (w : warray) : option warray :=
  match wa_snaps w with
  | [] => None
  | top :: rest => Some (WA (fold_left (fun a e => e :: a) (rev top) (wa_array w)) rest)
  end.
(** src/validate.rs 283-289. *)
Definition wa_commit (w : warray) : option warray :=
  match wa_snaps w with
  | [] => None
  | _ :: rest => Some (WA (wa_array w) rest)
  end.
(** src/validate.rs 292-294. *)
Definition wa_peek_front (w : warray) : option value :=
  match wa_array w with
  | [] => None
  | v :: _ => Some v
  end.
(** src/validate.rs 299-309. *)
Definition wa_pop_front (w : warray) : option warray :=
  match wa_array w with
  | [] => None
  | e :: a =>
      match wa_snaps w with
      | [] => Some (WA a [])
      | snap :: rest => Some (WA a ((snap ++ [e]) :: rest))
      end
  end.

(** src/validate.rs 167-172: [WorkingMap]. *)
Record wmap := WM { wm_map : list (value * value); wm_snaps : list (list (value * value)) }.

(** src/validate.rs 176-181. *)
Definition wm_new (m : list (value * value)) : wmap := WM m [].
(** src/validate.rs 192-194. *)
Definition wm_snapshot (w : wmap) : wmap := WM (wm_map w) ([] :: wm_snaps w).
(** src/validate.rs 197-204. *)
Definition wm_rewind (w : wmap) : option wmap :=
  match wm_snaps w with
  | [] => None
  | top :: rest => Some (WM (bt_extend (wm_map w) top) rest)
  end.
(** src/validate.rs 207-213. *)
Definition wm_commit (w : wmap) : option wmap :=
  match wm_snaps w with
  | [] => None
  | _ :: rest => Some (WM (wm_map w) rest)
  end.
(** src/validate.rs 216-218. *)
Definition wm_peek_at (k : value) (w : wmap) : option value := bt_get k (wm_map w).
(** src/validate.rs 223-233. *)
Definition wm_remove (k : value) (w : wmap) : option wmap :=
  match bt_remove k (wm_map w) with
  | (None, _) => None
  | (Some v, m) =>
      match wm_snaps w with
      | [] => Some (WM m [])
      | snap :: rest => Some (WM m ((snap ++ [(k, v)]) :: rest))
      end
  end.

(** * Loops *)

(** A [for] loop trying alternatives: stop at the first [Ok], stop at an error on
    which [stop] holds, otherwise go on with the (mutated) state; [final] is the
    error after the last alternative. *)
Fixpoint try_loop {St} (stop : verror -> bool) (f : node -> St -> option (res unit * St))
  (options : list node) (final : verror) (s : St) : option (res unit * St) :=
  match options with
  | [] => Some (Err final, s)
  | o :: os =>
      match f o s with
      | None => None
      | Some (Ok _, s') => Some (Ok tt, s')
      | Some (Err e, s') =>
          if stop e then Some (Err e, s') else try_loop stop f os final s'
      | Some (Panic, s') => Some (Panic, s')
      end
  end.

(** The same without state. *)
Fixpoint try_loop_pure (stop : verror -> bool) (f : node -> option (res unit))
  (options : list node) (final : verror) : option (res unit) :=
  match options with
  | [] => Some (Err final)
  | o :: os =>
      match f o with
      | None => None
      | Some (Ok _) => Some (Ok tt)
      | Some (Err e) => if stop e then Some (Err e) else try_loop_pure stop f os final
      | Some Panic => Some Panic
      end
  end.

(** A [for] loop over members with [?] on each. *)
Fixpoint seq_loop {St} (f : node -> St -> option (res unit * St))
  (members : list node) (s : St) : option (res unit * St) :=
  match members with
  | [] => Some (Ok tt, s)
  | m :: ms =>
      match f m s with
      | None => None
      | Some (Ok _, s') => seq_loop f ms s'
      | Some (Err e, s') => Some (Err e, s')
      | Some (Panic, s') => Some (Panic, s')
      end
  end.

(** The [loop] of [validate_array_occur] (src/validate.rs 612-633) and
    [validate_map_occur] (886-907): [Ok count] when the loop was left by
    [break], [Err] when by [return].  [count] is a [usize] in the code; it never
    exceeds [max upper 1], see [occur_loop_count]. *)
Fixpoint occur_loop {St} (n : nat) (step : St -> option (res unit * St))
  (upper count : N) (s : St) : option (res N * St) :=
  match n with
  | O => None
  | S n' =>
      match step s with
      | None => None
      | Some (Ok _, s') =>
          let count' := (count + 1)%N in
          if N.leb upper count' then Some (Ok count', s')
          else occur_loop n' step upper count' s'
      | Some (Err e, s') =>
          if is_mismatch e then Some (Ok count, s') else Some (Err e, s')
      | Some (Panic, s') => Some (Panic, s')
      end
  end.

(** * Rule chasing *)

(** src/validate.rs 973-984: [deref_range_rule]. *)
Fixpoint deref_range_rule (n : nat) (nd : node) (c : C) : option (res literal) :=
  match n with
  | O => None
  | S n' =>
      match nd with
      | NLiteral l => Some (Ok l)
      | NRule name args =>
          match lookup c name args with
          | Ok (nd', c') => deref_range_rule n' nd' c'
          | Err e => Some (Err e)
          | Panic => Some Panic
          end
      | _ => Some (Err (EStructural (txt "confusing type on range operator")))
      end
  end.

(** src/validate.rs 1034-1045: [chase_rules]. *)
Fixpoint chase_rules {R} (n : nat) (f : node -> res R) (nd : node) (c : C) : option (res R) :=
  match n with
  | O => None
  | S n' =>
      match nd with
      | NRule name args =>
          match lookup c name args with
          | Ok (nd', c') => chase_rules n' f nd' c'
          | Err e => Some (Err e)
          | Panic => Some Panic
          end
      | _ => Some (f nd)
      end
  end.

(** [?] on an optional result. *)
Definition obind {A B} (r : option (res A)) (f : A -> option (res B)) : option (res B) :=
  match r with
  | None => None
  | Some (Ok a) => f a
  | Some (Err e) => Some (Err e)
  | Some Panic => Some Panic
  end.

(** src/validate.rs 998-1031: [validate_range]. *)
Definition validate_range (n : nat) (start end_ : node) (inclusive : bool) (v : value) (c : C)
  : option (res unit) :=
  obind (deref_range_rule n start c) (fun s =>
  obind (deref_range_rule n end_ c) (fun e =>
  Some (range_compare (show_range X start end_ inclusive) s e inclusive v))).

(** src/validate.rs 1084-1101: [validate_control_size]. *)
Definition validate_control_size (n : nat) (target size : node) (v : value) (c : C) :=
  obind (chase_rules n (normalize_size_range X) size c) (fun sz =>
  chase_rules n (size_target X sz v) target c).

(** src/validate.rs 1103-1128: [validate_control_lt]. *)
Definition validate_control_lt (n : nat) (target limit : node) (v : value) (c : C) :=
  obind (chase_rules n (cmp_limit X (txt "lt")) limit c) (fun l =>
  chase_rules n (lt_target X l v) target c).

(** src/validate.rs 1130-1155: [validate_control_le]. *)
Definition validate_control_le (n : nat) (target limit : node) (v : value) (c : C) :=
  obind (chase_rules n (cmp_limit X (txt "le")) limit c) (fun l =>
  chase_rules n (le_target X l v) target c).

(** src/validate.rs 1157-1182: [validate_control_gt]. *)
Definition validate_control_gt (n : nat) (target limit : node) (v : value) (c : C) :=
  obind (chase_rules n (cmp_limit X (txt "gt")) limit c) (fun l =>
  chase_rules n (gt_target X l v) target c).

(** src/validate.rs 1184-1209: [validate_control_ge]. *)
Definition validate_control_ge (n : nat) (target limit : node) (v : value) (c : C) :=
  obind (chase_rules n (cmp_limit X (txt "ge")) limit c) (fun l =>
  chase_rules n (ge_target X l v) target c).

(** src/validate.rs 1067-1082: [validate_control_cbor] (feature [ciborium]
    enabled, which is the default); [rec] validates the nested value. *)
Definition validate_control_cbor (rec : value -> option (res unit)) (v : value)
  : option (res unit) :=
  match v with
  | VBytes b =>
      match cbor_decode X b with
      | inr msg => Some (Err (EValueError msg))
      | inl cv =>
          match of_cbor cv with
          | Ok nested => rec nested
          | Err e => Some (Err e)
          | Panic => Some Panic
          end
      end
  | _ => Some (Err (mismatch (txt "Bytes")))
  end.

(** src/validate.rs 1047-1057: [validate_control]. *)
Definition validate_control (n : nat) (rec : value -> node -> option (res unit))
  (ctl : control node) (v : value) (c : C) : option (res unit) :=
  match ctl with
  | CtlSize t s => validate_control_size n t s v c
  | CtlLt t l => validate_control_lt n t l v c
  | CtlLe t l => validate_control_le n t l v c
  | CtlGt t l => validate_control_gt n t l v c
  | CtlGe t l => validate_control_ge n t l v c
  | CtlRegexp re => Some (validate_control_regexp X re v)
  | CtlCbor nd => validate_control_cbor (fun v' => rec v' nd) v
  end.

(** * Bodies of the mutually recursive functions *)

Definition len_text (l : list node) : text := show_N (N.of_nat (List.length l)).
Definition choice_error (l : list node) : verror := mismatch (txt "choice of " ++ len_text l).
Definition choiceify_error (l : list node) : verror :=
  mismatch (txt "choiceified group of " ++ len_text l).

(** src/validate.rs 354-371: [validate_choice]. *)
Definition validate_choice (rec : node -> option (res unit)) (options : list node) :=
  try_loop_pure is_fatal rec options (choice_error options).

(** src/validate.rs 960-971: [validate_standalone_group]. *)
Definition validate_standalone_group (rec : node -> option (res unit)) (members : list node)
  : option (res unit) :=
  match members with
  | [m] => rec m
  | _ => Some (Err (EUnsupported (txt "standalone group")))
  end.

(** src/validate.rs 1579-1621: [validate_choiceify_members] (also 1640-1642,
    [validate_choiceify_inline]). *)
Definition validate_choiceify_members (rec : node -> option (res unit))
  (rec_choiceify : text -> list node -> option (res unit)) (choices : list node) :=
  try_loop_pure is_fatal
    (fun item =>
       match item with
       | NKeyValue _ v _ => rec v
       | NRule name args => rec_choiceify name args
       | _ => rec item
       end) choices (choiceify_error choices).

(** src/validate.rs 641-655: [validate_array_value]. *)
Definition validate_array_value (rec : value -> node -> option (res unit)) (nd : node) (w : warray)
  : option (res unit * warray) :=
  match wa_peek_front w with
  | Some v =>
      match rec v nd with
      | None => None
      | Some (Ok _) =>
          match wa_pop_front w with
          | Some w' => Some (Ok tt, w')
          | None => Some (Panic, w)
          end
      | Some (Err e) => Some (Err e, w)
      | Some Panic => Some (Panic, w)
      end
  | None => Some (Err (mismatch (txt "array element " ++ show_node X nd)), w)
  end.

(** src/validate.rs 606-638: [validate_array_occur]. *)
Definition validate_array_occur (n : nat) (step : warray -> option (res unit * warray))
  (limit : occur_limit) (nd : node) (w : warray) : option (res unit * warray) :=
  let (lower, upper) := limits limit in
  match occur_loop n step upper 0 w with
  | None => None
  | Some (Ok count, w') =>
      if N.ltb count lower
      then Some (Err (mismatch (txt "more array element [" ++ show_occur X limit nd ++ txt "]")), w')
      else Some (Ok tt, w')
  | Some (Err e, w') => Some (Err e, w')
  | Some (Panic, w') => Some (Panic, w')
  end.

(** src/validate.rs 584-602: [validate_array_unwrap]. *)
Definition validate_array_unwrap (rec : node -> warray -> option (res unit * warray))
  (nd : node) (w : warray) : option (res unit * warray) :=
  match nd with
  | NArray members => seq_loop rec members w
  | _ => Some (Err (mismatch (txt "unwrap array")), w)
  end.

(** src/validate.rs 553-579: the [Group] arm of [validate_array_member]. *)
Definition validate_array_group (rec : node -> warray -> option (res unit * warray))
  (members : list node) (w : warray) : option (res unit * warray) :=
  match seq_loop rec members (wa_snapshot w) with
  | None => None
  | Some (Ok _, w') =>
      match wa_commit w' with
      | Some w'' => Some (Ok tt, w'')
      | None => Some (Panic, w')
      end
  | Some (Err e, w') =>
      match wa_rewind w' with
      | Some w'' => Some (Err e, w'')
      | None => Some (Panic, w')
      end
  | Some (Panic, w') => Some (Panic, w')
  end.

(** src/validate.rs 458-496: [validate_array] and [validate_array_part2]. *)
Definition validate_array (rec : node -> warray -> option (res unit * warray))
  (members : list node) (v : value) : option (res unit) :=
  match v with
  | VArray a =>
      match seq_loop rec members (wa_new a) with
      | None => None
      | Some (Ok _, w) =>
          match wa_array w with
          | [] => Some (Ok tt)
          | _ :: _ => Some (Err (mismatch (txt "shorter array")))
          end
      | Some (Err e, _) => Some (Err e)
      | Some (Panic, _) => Some Panic
      end
  | _ => Some (Err (mismatch (txt "array")))
  end.

(** src/validate.rs 402-414: [map_search_literal]. *)
Definition map_search_literal (l : literal) (w : wmap) : res (value * value) :=
  let search_key := value_of_literal l in
  match wm_peek_at search_key w with
  | Some v => Ok (search_key, v)
  | None => Err (mismatch (txt "map{" ++ show_literal X l ++ txt "}"))
  end.

(** src/validate.rs 419-432: [map_search]; entries in key order. *)
Fixpoint map_search_loop (rec : value -> option (res unit)) (entries : list (value * value))
  (final : verror) : option (res (value * value)) :=
  match entries with
  | [] => Some (Err final)
  | (k, v) :: entries' =>
      match rec k with
      | None => None
      | Some (Ok _) => Some (Ok (k, v))
      | Some (Err _) => map_search_loop rec entries' final
      | Some Panic => Some Panic
      end
  end.
Definition map_search (rec : value -> node -> option (res unit)) (nd : node) (w : wmap) :=
  map_search_loop (fun k => rec k nd) (wm_map w)
    (mismatch (txt "map{" ++ show_node X nd ++ txt "}")).

(** src/validate.rs 340-349: [validate_map_key]. *)
Definition validate_map_key (rec : value -> node -> option (res unit)) (nd : node) (w : wmap)
  : option (res (value * value)) :=
  match nd with
  | NLiteral l => Some (map_search_literal l w)
  | _ => map_search rec nd w
  end.

(** src/validate.rs 918-958: [validate_map_keyvalue]. *)
Definition validate_map_keyvalue (rec : value -> node -> option (res unit))
  (key val : node) (cut : bool) (w : wmap) : option (res unit * wmap) :=
  match validate_map_key rec key w with
  | None => None
  | Some (Err e) => Some (Err e, w)
  | Some Panic => Some (Panic, w)
  | Some (Ok (working_key, working_val)) =>
      match rec working_val val with
      | None => None
      | Some (Ok _) =>
          match wm_remove working_key w with
          | Some w' => Some (Ok tt, w')
          | None => Some (Panic, w)
          end
      | Some (Err e) =>
          match cut, e with
          | true, EMismatch m => Some (Err (EMapCut m), w)
          | _, _ => Some (Err e, w)
          end
      | Some Panic => Some (Panic, w)
      end
  end.

(** src/validate.rs 880-915: [validate_map_occur]. *)
Definition validate_map_occur (n : nat) (step : wmap -> option (res unit * wmap))
  (limit : occur_limit) (nd : node) (w : wmap) : option (res unit * wmap) :=
  let (lower, upper) := limits limit in
  match occur_loop n step upper 0 w with
  | None => None
  | Some (Ok count, w') =>
      if N.ltb count lower
      then Some (Err (mismatch (txt "map{" ++ show_occur X limit nd ++ txt "}]")), w')
      else Some (Ok tt, w')
  | Some (Err e, w') => Some (Err e, w')
  | Some (Panic, w') => Some (Panic, w')
  end.

(** src/validate.rs 863-877: [validate_map_unwrap]. *)
Definition validate_map_unwrap (rec : node -> wmap -> option (res unit * wmap))
  (nd : node) (w : wmap) : option (res unit * wmap) :=
  match nd with
  | NMap members => seq_loop rec members w
  | _ => Some (Err (mismatch (txt "unwrap map")), w)
  end.

(** src/validate.rs 722-752: the [Group] arm of [validate_map_member]. *)
Definition validate_map_group (rec : node -> wmap -> option (res unit * wmap))
  (members : list node) (w : wmap) : option (res unit * wmap) :=
  match seq_loop rec members (wm_snapshot w) with
  | None => None
  | Some (Ok _, w') =>
      match wm_commit w' with
      | Some w'' => Some (Ok tt, w'')
      | None => Some (Panic, w')
      end
  | Some (Err e, w') =>
      match wm_rewind w' with
      | Some w'' => Some (Err (erase_mapcut e), w'')
      | None => Some (Panic, w')
      end
  | Some (Panic, w') => Some (Panic, w')
  end.

(** src/validate.rs 767-791: [validate_map_choice]. *)
Definition validate_map_choice (rec : node -> wmap -> option (res unit * wmap))
  (options : list node) (w : wmap) :=
  try_loop (fun e => negb (is_mismatch e)) rec options (choice_error options) w.

(** src/validate.rs 794-843: [validate_map_choiceify_members]. *)
Definition validate_map_choiceify_members (rec : node -> wmap -> option (res unit * wmap))
  (rec_choiceify : text -> list node -> wmap -> option (res unit * wmap))
  (choices : list node) (w : wmap) :=
  try_loop (fun e => negb (is_mismatch e))
    (fun item =>
       match item with
       | NKeyValue _ v _ => rec v
       | NRule name args => rec_choiceify name args
       | _ => rec item
       end) choices (choiceify_error choices) w.

(** src/validate.rs 657-696: [validate_map] and [validate_map_part2]. *)
Definition validate_map (rec : node -> wmap -> option (res unit * wmap))
  (members : list node) (v : value) : option (res unit) :=
  match v with
  | VMap m =>
      match seq_loop rec members (wm_new m) with
      | None => None
      | Some (Ok _, w) =>
          match wm_map w with
          | [] => Some (Ok tt)
          | _ :: _ => Some (Err (mismatch (txt "shorter map")))
          end
      | Some (Err e, _) => Some (Err (erase_mapcut e))
      | Some (Panic, _) => Some Panic
      end
  | _ => Some (Err (mismatch (txt "map")))
  end.

(** * The recursive functions *)

(** src/validate.rs 318-335 ([validate]; 376-379 [validate_rule]),
    498-582 ([validate_array_member]), 698-765 ([validate_map_member]),
    1626-1635 ([validate_choiceify]), 848-861 ([validate_map_choiceify]). *)
Fixpoint validate (n : nat) (v : value) (nd : node) (c : C) {struct n} : option (res unit) :=
  match n with
  | O => None
  | S n' =>
      match nd with
      | NLiteral l => Some (validate_literal X l v)
      | NPrelude p => Some (validate_prelude_type p v)
      | NChoice os => validate_choice (fun o => validate n' v o c) os
      | NMap ms => validate_map (fun m w => validate_map_member n' m w c) ms v
      | NArray ms => validate_array (fun m w => validate_array_member n' m w c) ms v
      | NRule name args =>
          match lookup c name args with
          | Ok (nd', c') => validate n' v nd' c'
          | Err e => Some (Err e)
          | Panic => Some Panic
          end
      | NGroup ms => validate_standalone_group (fun m => validate n' v m c) ms
      | NKeyValue _ _ _ => Some (Err (EStructural (txt "unexpected KeyValue")))
      | NOccur _ _ => Some (Err (EStructural (txt "unexpected Occur")))
      | NUnwrap _ _ => Some (Err (EStructural (txt "unexpected Unwrap")))
      | NRange s e incl => validate_range n' s e incl v c
      | NControl ctl => validate_control n' (fun v' nd' => validate n' v' nd' c) ctl v c
      | NChoiceify name args => validate_choiceify n' name args v c
      | NChoiceifyInline ms =>
          validate_choiceify_members (fun m => validate n' v m c)
            (fun name args => validate_choiceify n' name args v c) ms
      end
  end

with validate_array_member (n : nat) (m : node) (w : warray) (c : C) {struct n}
  : option (res unit * warray) :=
  match n with
  | O => None
  | S n' =>
      match m with
      | NOccur limit nd =>
          validate_array_occur n' (fun w => validate_array_member n' nd w c) limit nd w
      | NKeyValue _ val _ => validate_array_value (fun v nd => validate n' v nd c) val w
      | NRule name args =>
          match lookup c name args with
          | Ok (nd', c') => validate_array_member n' nd' w c'
          | Err e => Some (Err e, w)
          | Panic => Some (Panic, w)
          end
      | NUnwrap name args =>
          match lookup c name args with
          | Ok (nd', c') =>
              validate_array_unwrap (fun m w => validate_array_member n' m w c') nd' w
          | Err e => Some (Err e, w)
          | Panic => Some (Panic, w)
          end
      | NChoice os =>
          try_loop is_fatal (fun o w => validate_array_member n' o w c) os (choice_error os) w
      | NGroup ms => validate_array_group (fun m w => validate_array_member n' m w c) ms w
      | _ => validate_array_value (fun v nd => validate n' v nd c) m w
      end
  end

with validate_map_member (n : nat) (m : node) (w : wmap) (c : C) {struct n}
  : option (res unit * wmap) :=
  match n with
  | O => None
  | S n' =>
      match m with
      | NOccur limit nd =>
          validate_map_occur n' (fun w => validate_map_member n' nd w c) limit nd w
      | NKeyValue key val cut =>
          validate_map_keyvalue (fun v nd => validate n' v nd c) key val cut w
      | NRule name args =>
          match lookup c name args with
          | Ok (nd', c') => validate_map_member n' nd' w c'
          | Err e => Some (Err e, w)
          | Panic => Some (Panic, w)
          end
      | NUnwrap name args =>
          match lookup c name args with
          | Ok (nd', c') =>
              validate_map_unwrap (fun m w => validate_map_member n' m w c') nd' w
          | Err e => Some (Err e, w)
          | Panic => Some (Panic, w)
          end
      | NGroup ms => validate_map_group (fun m w => validate_map_member n' m w c) ms w
      | NChoice os => validate_map_choice (fun m w => validate_map_member n' m w c) os w
      | NChoiceify name args => validate_map_choiceify n' name args w c
      | NChoiceifyInline ms => validate_map_choice (fun m w => validate_map_member n' m w c) ms w
      | NLiteral _ => Some (Err (EStructural (txt "literal map member")), w)
      | NPrelude _ => Some (Err (EStructural (txt "prelude type map member")), w)
      | NMap _ => Some (Err (EStructural (txt "map as map member")), w)
      | NArray _ => Some (Err (EStructural (txt "array as map member")), w)
      | NRange _ _ _ => Some (Err (EStructural (txt "range as map member")), w)
      | NControl _ => Some (Err (EStructural (txt "control op as map member")), w)
      end
  end

with validate_choiceify (n : nat) (name : text) (args : list node) (v : value) (c : C)
  {struct n} : option (res unit) :=
  match n with
  | O => None
  | S n' =>
      match lookup c name args with
      | Ok (nd', c') =>
          match nd' with
          | NGroup ms =>
              validate_choiceify_members (fun m => validate n' v m c')
                (fun name' args' => validate_choiceify n' name' args' v c') ms
          | NRule name' args' => validate_choiceify n' name' args' v c'
          | _ => Some (Err (EStructural (txt "improper choiceify target")))
          end
      | Err e => Some (Err e)
      | Panic => Some Panic
      end
  end

with validate_map_choiceify (n : nat) (name : text) (args : list node) (w : wmap) (c : C)
  {struct n} : option (res unit * wmap) :=
  match n with
  | O => None
  | S n' =>
      match lookup c name args with
      | Ok (nd', c') =>
          match nd' with
          | NGroup ms =>
              validate_map_choiceify_members (fun m w => validate_map_member n' m w c')
                (fun name' args' w => validate_map_choiceify n' name' args' w c') ms w
          | NRule name' args' => validate_map_choiceify n' name' args' w c'
          | _ => Some (Err (EStructural (txt "improper map choiceify target")), w)
          end
      | Err e => Some (Err e, w)
      | Panic => Some (Panic, w)
      end
  end.

End Validator.

(** src/validate.rs 141-159: [do_validate]. *)
Definition do_validate (X : ext) (lk : lookup_context) (n : nat) (v : value) (def : rule_def)
  : option (res unit) :=
  match rd_parms def with
  | _ :: _ => Some (Err EGenericError)
  | [] => validate X (lookup_rule lk) n v (rd_node def) initial_ctx
  end.
