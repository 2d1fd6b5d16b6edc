(** Model of the data conversions in src/cbor.rs and src/json.rs. *)
From Coq Require Import List Bool ZArith NArith String.
From Verif Require Import Base Util Data Value.
Import ListNotations.
Open Scope list_scope.

(** [iter().map(f).collect::<Result<Vec<_>, _>>()]: first error wins. *)
Definition collect_res {A B} (f : A -> res B) : list A -> res (list B) :=
  fix go l :=
    match l with
    | [] => Ok []
    | x :: l' =>
        match f x with
        | Ok y =>
            match go l' with
            | Ok ys => Ok (y :: ys)
            | Err e => Err e
            | Panic => Panic
            end
        | Err e => Err e
        | Panic => Panic
        end
    end.

(** src/cbor.rs 75-112: [TryFrom<&CBOR_Value> for Value] (and the consuming
    variant 115-121). *)
Fixpoint of_cbor (c : cbor) : res value :=
  match c with
  | CNull => Ok VNull
  | CBool b => Ok (VBool b)
  | CInteger z => Ok (VInteger z)
  | CFloat u => Ok (VFloat u)
  | CBytes b => Ok (VBytes b)
  | CText t => Ok (VText t)
  | CArray a =>
      match collect_res of_cbor a with
      | Ok l => Ok (VArray l)
      | Err e => Err e
      | Panic => Panic
      end
  | CMap m =>
      match collect_res
              (fun p =>
                 match of_cbor (fst p) with
                 | Ok k =>
                     match of_cbor (snd p) with
                     | Ok v => Ok (k, v)
                     | Err e => Err e
                     | Panic => Panic
                     end
                 | Err e => Err e
                 | Panic => Panic
                 end) m with
      | Ok l => Ok (VMap (bt_extend [] l))
      | Err e => Err e
      | Panic => Panic
      end
  | CTag _ _ | CHidden => Err (EValueError (txt "can't handle hidden cbor Value"))
  end.

(** [serde_json::Number::as_u64], [as_i64], [as_f64].  [as_f64] of an integer
    is never reached by the crate; it is only relevant that it is [Some]. *)
Definition as_u64 (n : json_number) : option Z :=
  match n with JPosInt u => Some (Z.of_N u) | _ => None end.
Definition as_i64 (n : json_number) : option Z :=
  match n with
  | JPosInt u => if N.leb u 0x7FFFFFFFFFFFFFFF then Some (Z.of_N u) else None
  | JNegInt z => Some z
  | JFloat _ => None
  end.
Definition as_f64 (n : json_number) : option N :=
  match n with JFloat u => Some u | _ => Some 0%N end.

(** src/json.rs 30-70: [TryFrom<&JSON_Value> for Value]. *)
Fixpoint of_json (j : json) : res value :=
  match j with
  | JNull => Ok VNull
  | JBool b => Ok (VBool b)
  | JNumber num =>
      match as_u64 num with
      | Some u => Ok (VInteger u)
      | None =>
          match as_i64 num with
          | Some i => Ok (VInteger i)
          | None =>
              match as_f64 num with
              | Some f => Ok (VFloat f)
              | None => Err (EValueError (txt "JSON Value::Number conversion failure"))
              end
          end
      end
  | JString t => Ok (VText t)
  | JArray a =>
      match collect_res of_json a with
      | Ok l => Ok (VArray l)
      | Err e => Err e
      | Panic => Panic
      end
  | JObject m =>
      match collect_res
              (fun p =>
                 match of_json (snd p) with
                 | Ok v => Ok (VText (fst p), v)
                 | Err e => Err e
                 | Panic => Panic
                 end) m with
      | Ok l => Ok (VMap (bt_extend [] l))
      | Err e => Err e
      | Panic => Panic
      end
  end.
