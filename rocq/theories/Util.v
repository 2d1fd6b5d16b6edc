(** Model of src/util.rs and src/parser/parse_err.rs: error types. *)
From Coq Require Import List Bool NArith String.
From Verif Require Import Base.
Import ListNotations.
Open Scope list_scope.

(** src/parser/parse_err.rs 9-25: [ErrorKind]. *)
Inductive perror_kind :=
| MalformedInteger | MalformedFloat | MalformedHex
| MalformedText | MalformedBase64 | Unparseable.

(** src/parser/parse_err.rs 27-36 ([ParseError]) and 49-58 ([CowParseError]);
    the borrowed/owned distinction is not modelled. *)
Record parse_error := PErr { pe_kind : perror_kind; pe_ctx : text }.

(** src/util.rs 9-43: [ValidateError]. [Mismatch] structs (68-75) are their
    [expected] text. *)
Inductive verror :=
| EParse (e : parse_error)
| EStructural (m : text)
| EMismatch (expected : text)
| EMapCut (expected : text)
| EMissingRule (name : text)
| EUnsupported (m : text)
| EValueError (m : text)
| EGenericError.

(** src/util.rs 50-52: [is_fatal]. *)
Definition is_fatal (e : verror) : bool :=
  match e with
  | EMismatch _ | EMapCut _ => false
  | _ => true
  end.

(** src/util.rs 55-60: [erase_mapcut]. *)
Definition erase_mapcut (e : verror) : verror :=
  match e with
  | EMapCut m => EMismatch m
  | _ => e
  end.

(** src/util.rs 62-64: [is_mismatch]. *)
Definition is_mismatch (e : verror) : bool :=
  match e with
  | EMismatch _ => true
  | _ => false
  end.

(** src/util.rs 77-83: [mismatch]. *)
Definition mismatch (expected : text) : verror := EMismatch expected.

(** Debug names of [ErrorKind] used by the [Display] of [ParseError]
    (src/parser/parse_err.rs 28-30, [{kind:?}({ctx})]). *)
Definition show_kind (k : perror_kind) : text :=
  match k with
  | MalformedInteger => txt "MalformedInteger"
  | MalformedFloat => txt "MalformedFloat"
  | MalformedHex => txt "MalformedHex"
  | MalformedText => txt "MalformedText"
  | MalformedBase64 => txt "MalformedBase64"
  | Unparseable => txt "Unparseable"
  end.

(** src/util.rs 13-42: the [#[error(...)]] attributes ([Display]). *)
Definition show_error (e : verror) : text :=
  match e with
  | EParse p => show_kind (pe_kind p) ++ txt "(" ++ pe_ctx p ++ txt ")"
  | EStructural m => txt "Structural(" ++ m ++ txt ")"
  | EMismatch m => txt "Mismatch(expected " ++ m ++ txt ")"
  | EMapCut m => txt "Mismatch(expected " ++ m ++ txt ")"
  | EMissingRule m => txt "MissingRule(" ++ m ++ txt ")"
  | EUnsupported m => txt "Unsupported " ++ m
  | EValueError m => txt "ValueError(" ++ m ++ txt ")"
  | EGenericError => txt "GenericError"
  end.

(** Result of a Rust function returning [Result<A, ValidateError>]: a value, an
    error, or a panic. *)
Inductive res (A : Type) :=
| Ok (a : A)
| Err (e : verror)
| Panic.
Arguments Ok {A} a.
Arguments Err {A} e.
Arguments Panic {A}.

(** The [?] operator. *)
Definition bind_res {A B} (r : res A) (f : A -> res B) : res B :=
  match r with
  | Ok a => f a
  | Err e => Err e
  | Panic => Panic
  end.

(** [Result::map_err]. *)
Definition map_err {A} (f : verror -> verror) (r : res A) : res A :=
  match r with
  | Ok a => Ok a
  | Err e => Err (f e)
  | Panic => Panic
  end.
