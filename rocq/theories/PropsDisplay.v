(** What is printed for an error: C74. *)
From Coq Require Import List Bool ZArith NArith String Lia.
From Verif Require Import Base Util Data Value Convert Ivt Scalar Validate Total Fun NoPanic SpecBase SpecConvert SpecText SpecWords
  ConvertProofs ConvertExact CtxProofs Ast Flatten Parser Api Demo PropsWords.
Import ListNotations.
Open Scope list_scope.

(** ** Specification: the kind of error, then what it is about in parentheses.  Unsupported
    features have no parentheses; a cut is printed like any mismatch. *)
Inductive prints : verror -> text -> Prop :=
| prints_integer t : prints (EParse (PErr MalformedInteger t)) (txt "MalformedInteger(" ++ t ++ txt ")")
| prints_float t : prints (EParse (PErr MalformedFloat t)) (txt "MalformedFloat(" ++ t ++ txt ")")
| prints_hex t : prints (EParse (PErr MalformedHex t)) (txt "MalformedHex(" ++ t ++ txt ")")
| prints_text t : prints (EParse (PErr MalformedText t)) (txt "MalformedText(" ++ t ++ txt ")")
| prints_base64 t : prints (EParse (PErr MalformedBase64 t)) (txt "MalformedBase64(" ++ t ++ txt ")")
| prints_unparseable t : prints (EParse (PErr Unparseable t)) (txt "Unparseable(" ++ t ++ txt ")")
| prints_structural t : prints (EStructural t) (txt "Structural(" ++ t ++ txt ")")
| prints_mismatch t : prints (EMismatch t) (txt "Mismatch(expected " ++ t ++ txt ")")
| prints_cut t : prints (EMapCut t) (txt "Mismatch(expected " ++ t ++ txt ")")
| prints_missing t : prints (EMissingRule t) (txt "MissingRule(" ++ t ++ txt ")")
| prints_unsupported t : prints (EUnsupported t) (txt "Unsupported " ++ t)
| prints_value t : prints (EValueError t) (txt "ValueError(" ++ t ++ txt ")")
| prints_generic : prints EGenericError (txt "GenericError").

(** ** C74.  The printed text is the specified one ... *)
Theorem C74_printed_exact : forall e t, show_error e = t <-> prints e t.
Proof.
  intros e t. split.
  - intros <-. destruct e as [[[] ?]| | | | | | |]; constructor.
  - intros []; reflexivity.
Qed.
(** ... and tells the errors apart that validation can report. *)
Theorem C74_printed_injective : forall e e',
  (forall m, e <> EMapCut m) -> (forall m, e' <> EMapCut m) -> show_error e = show_error e' -> e = e'.
Proof.
  intros e e' N N' H.
  destruct e as [[[] a]| | | | | | |]; destruct e' as [[[] b]| | | | | | |];
    try (exfalso; eapply N; reflexivity); try (exfalso; eapply N'; reflexivity);
    try reflexivity; try (cbv in H; discriminate); try (unfold show_error in H; cbn [pe_kind pe_ctx show_kind] in H;
      try rewrite !app_assoc in H; try (apply app_inv_tail in H); apply app_inv_head in H; subst; reflexivity).
Qed.
(** What a failed validation prints is one of finitely many texts that the schema
    determines, or a message of the CBOR decoder. *)
Theorem C74_printed_from_schema : forall X rs v def e,
  wf_value v -> run_validate X (basic_context rs) v def = Err e ->
  (exists e', In e' (schema_errors X rs (rd_node def)) /\ prints e' (show_error e)) \/
  (exists b msg, cbor_decode X b = inr msg /\ show_error e = txt "ValueError(" ++ msg ++ txt ")").
Proof.
  intros X rs v def e W R. destruct (C72_errors_from_schema X rs v def e W R) as [I|(b & msg & D & ->)].
  - left. exists e. split; auto. apply C74_printed_exact. auto.
  - right. exists b, msg. auto.
Qed.

(** ** Non-vacuity; the exclusion of the cut signal is needed. *)
Example ex_C74 : show_error (EMismatch (txt "map{""pin""}")) = txt "Mismatch(expected map{""pin""})" /\
  show_error (EMissingRule (txt "a")) = txt "MissingRule(a)" /\
  show_error (EUnsupported (txt "standalone group")) = txt "Unsupported standalone group" /\
  show_error (EParse (PErr Unparseable (txt "x"))) = txt "Unparseable(x)".
Proof. repeat split. Qed.
Example ex_C74_cut : show_error (EMapCut (txt "int")) = show_error (EMismatch (txt "int")).
Proof. reflexivity. Qed.

Print Assumptions C74_printed_exact.
Print Assumptions C74_printed_injective.
Print Assumptions C74_printed_from_schema.
