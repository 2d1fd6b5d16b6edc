(** What validation may ever report for a schema.  The list is computed from the
    schema alone: no document occurs in it. *)
From Coq Require Import List Bool ZArith NArith String.
From Verif Require Import Base Util Data Value Ivt Validate SpecBase SpecScalar SpecText SpecJudge SpecActs.
Import ListNotations.
Open Scope list_scope.

(** All nodes of a schema tree. *)
Fixpoint pieces (n : node) : list node :=
  n :: match n with
       | NLiteral _ | NPrelude _ => []
       | NRule _ l | NChoice l | NMap l | NArray l | NGroup l | NUnwrap _ l
       | NChoiceify _ l | NChoiceifyInline l => flat_map pieces l
       | NKeyValue a b _ | NRange a b _ => pieces a ++ pieces b
       | NOccur _ a => pieces a
       | NControl (CtlSize a b) | NControl (CtlLt a b) | NControl (CtlLe a b)
       | NControl (CtlGt a b) | NControl (CtlGe a b) => pieces a ++ pieces b
       | NControl (CtlRegexp _) => []
       | NControl (CtlCbor a) => pieces a
       end.

Definition all_types := [PAny; PNil; PBool; PInt; PUint; PNint; PFloat; PTstr; PBstr].
Definition all_ops := [OpLt; OpLe; OpGt; OpGe].

(** Errors that quote nothing. *)
Definition fixed_errors : list verror :=
  EGenericError ::
  map EMismatch
    ([txt "array"; txt "map"; txt "shorter array"; txt "shorter map"; txt "unwrap array"; txt "unwrap map";
      txt "Bytes"; txt "regex mismatch"; txt ".size on negative integer"] ++
     map type_name all_types ++
     flat_map (fun p => [type_name p ++ txt " under .size limit"; type_name p ++ txt " over .size limit"]) all_types ++
     flat_map (fun op => map (limit_text op) all_types) all_ops) ++
  map EStructural
    [txt "hit recursion limit"; txt "confusing type on range operator"; txt "mismatched types on range operator";
     txt "improper choiceify target"; txt "improper map choiceify target";
     txt "unexpected KeyValue"; txt "unexpected Occur"; txt "unexpected Unwrap";
     txt "literal map member"; txt "prelude type map member"; txt "map as map member"; txt "array as map member";
     txt "range as map member"; txt "control op as map member"] ++
  [EUnsupported (txt "standalone group"); EValueError (txt "can't handle hidden cbor Value")].

Section Words.
Variable X : ext.
(** Errors that quote a node of the schema. *)
Definition errors_about (n : node) : list verror :=
  [EMismatch (txt "array element " ++ part_text X n);
   EStructural (txt "bad .size argument type (" ++ part_text X n ++ txt ")");
   EStructural (txt "bad .size range start type (" ++ part_text X n ++ txt ")");
   EStructural (txt "bad .size range end type (" ++ part_text X n ++ txt ")");
   EStructural (txt "bad .size target type (" ++ part_text X n ++ txt ")")] ++
  map (fun op => EStructural (cmp_target_fault X op n)) all_ops ++
  map (fun op => EStructural (txt "bad ." ++ op_name op ++ txt " argument type (" ++ part_text X n ++ txt ")")) all_ops ++
  match n with
  | NLiteral l => EMismatch (literal_text X l) ::
      match l with LInt z => [EStructural (txt "bad .size limit " ++ integer z)] | _ => [] end
  | NRange s e incl => [EMismatch (range_text X s e incl)]
  | NChoice l | NGroup l | NChoiceifyInline l => [EMismatch (choice_of l); EMismatch (one_of_text l)]
  | NOccur l m => [EMismatch (txt "more array element [" ++ occur_text X l m ++ txt "]");
                   EMismatch (txt "map{" ++ occur_text X l m ++ txt "}]")]
  | NKeyValue k _ _ => [EMismatch (txt "map{" ++ part_text X k ++ txt "}")]
  | NRule name _ | NUnwrap name _ | NChoiceify name _ => [EMissingRule name]
  | _ => []
  end.

(** The schema: the nodes of the type asked for and of all rules. *)
Definition schema_pieces (rs : rules) (t : node) : list node :=
  flat_map pieces (t :: map (fun r => rd_node (snd r)) rs).
Definition schema_errors (rs : rules) (t : node) : list verror :=
  fixed_errors ++ flat_map errors_about (schema_pieces rs t).
(** The one exception: what the CBOR decoder says about bytes within the document. *)
Definition decoder_error (e : verror) : Prop := exists b msg, cbor_decode X b = inr msg /\ e = EValueError msg.
End Words.
